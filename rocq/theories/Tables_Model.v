(** * Tables_Model: the tabulated quadratures.
    Modelled: src/angle/LevelSymmetric.cc, TabuchiYamamoto.cc, TriGauss.hh,
    AbuShumaysDoubleRange.cc, AbuShumaysQuadrupleRange.cc.
    Simplifications: double is R and every literal is the decimal number that is
    written (the compiler rounds it to the nearest double); size_t is nat;
    soft_equiv in the Insist of the interval is equality. *)
From Coq Require Export QArith Qreals.
From Verif Require Import Base BaseR Util_Model Angle_Model.
Open Scope nat_scope.

(** ** LevelSymmetric *)

(** LevelSymmetric.cc 62-370: abscissae, weights and the weight index of every
    angle (att, wtt, wp); case 2 stores its weight directly. *)
Definition ls_att (order : nat) : list Q :=
  match order with
  | 2 => [
      0.577350269189625764509149]%Q
  | 4 => [
      0.350021174581540677777041; 0.868890300722201205229788]%Q
  | 6 => [
      0.266635401516704720331535; 0.681507726536546927403750; 0.926180935517489107558380]%Q
  | 8 => [
      0.218217890235992381266097; 0.577350269189625764509149; 0.786795792469443145800830;
      0.951189731211341853132399]%Q
  | 10 => [
      0.189321326478010476671494; 0.508881755582618974382711; 0.694318887594384317279217;
      0.839759962236684758403029; 0.963490981110468484701598]%Q
  | 12 => [
      0.167212652822713264084504; 0.459547634642594690016761; 0.628019096642130901034766;
      0.760021014833664062877138; 0.872270543025721502340662; 0.971637719251358378302376]%Q
  | 14 => [
      0.151985861461031912404799; 0.422156982304796966896263; 0.577350269189625764509149;
      0.698892086775901338963210; 0.802226255231412057244328; 0.893691098874356784901111;
      0.976627152925770351762946]%Q
  | 16 => [
      0.138956875067780344591732; 0.392289261444811712294197; 0.537096561300879079878296;
      0.650426450628771770509703; 0.746750573614681064580018; 0.831996556910044145168291;
      0.909285500943725291652116; 0.980500879011739882135849]%Q
  | 18 => [
      0.129344504545924818514086; 0.368043816053393605686086; 0.504165151725164054411848;
      0.610662549934881101060239; 0.701166884252161909657019; 0.781256199495913171286914;
      0.853866206691488372341858; 0.920768021061018932899055; 0.983127661236087115272518]%Q
  | 20 => [
      0.120603343036693597409418; 0.347574292315847257336779; 0.476519266143665680817278;
      0.577350269189625764509149; 0.663020403653288019308783; 0.738822561910371432904974;
      0.807540401661143067193530; 0.870852583760463975580977; 0.929863938955324566667817;
      0.985347485558646574628509]%Q
  | 22 => [
      0.113888641383070838173488; 0.330271760593086736334651; 0.452977095507524183904005;
      0.548905330875560154226714; 0.630401360620980621392149; 0.702506006153654989703184;
      0.767869456282208576047898; 0.828089557415325768804621; 0.884217805921983001958912;
      0.936989829997455780115072; 0.986944149751056870330152]%Q
  | 24 => [
      0.107544208775147285552086; 0.315151630853896874875332; 0.432522073446742487657060;
      0.524242441631224399254880; 0.602150256328323868809286; 0.671073561381361944701265;
      0.733549261041044861004094; 0.791106384731321324814121; 0.844750913317919895113069;
      0.895186516397704814461305; 0.942928254285052510917188; 0.988366574868785749937406]%Q
  | _ => []
  end.
Definition ls_wtt (order : nat) : list Q :=
  match order with
  | 2 => [
      1.000000000000000000000000]%Q
  | 4 => [
      0.333333333333333333333333]%Q
  | 6 => [
      0.176126130863383433783565; 0.157207202469949899549768]%Q
  | 8 => [
      0.120987654320987654320988; 0.0907407407407407407407407; 0.0925925925925925925925926]%Q
  | 10 => [
      0.0893031479843567214704325; 0.0725291517123655242296233; 0.0450437674364086390490892;
      0.0539281144878369243545650]%Q
  | 12 => [
      0.0707625899700910439766549; 0.0558811015648888075828962; 0.0373376737588285824652402;
      0.0502819010600571181385765; 0.0258512916557503911218290]%Q
  | 14 => [
      0.0579970408969969964063611; 0.0489007976368104874582568; 0.0227935342411872473257345;
      0.0394132005950078294492985; 0.0380990861440121712365891; 0.0258394076418900119611012;
      0.00826957997262252825269908]%Q
  | 16 => [
      0.0489872391580385335008367; 0.0413295978698440232405505; 0.0203032007393652080748070;
      0.0265500757813498446015484; 0.0379074407956004002099321; 0.0135295047786756344371600;
      0.0326369372026850701318409; 0.0103769578385399087825920]%Q
  | 18 => [
      0.0422646448843821748535825; 0.0376127473827281471532380; 0.0122691351637405931037187;
      0.0324188352558815048715646; 0.00664438614619073823264082; 0.0312093838436551370068864;
      0.0160127252691940275641645; 0.0200484595308572875885066; 0.000111409402059638628382279;
      0.0163797038522425240494567]%Q
  | 20 => [
      0.0370210490604481342320295; 0.0332842165376314841003910; 0.0111738965965092519614021;
      0.0245177476959359285418987; 0.0135924329650041789567081; 0.0318029065936585971501960;
      0.00685492401402507781062634; 0.0308105481755299327227893; (-0.000139484716502602877593527);
      0.00544675187330776223879437; 0.00474564692642379971238396; 0.0277298541009064049325246]%Q
  | 22 => [
      0.0329277718552552308051381; 0.0309569328165031538543025; 0.00577105953220643022391829;
      0.0316834548379952775919418; (-0.00669350304140992494103696); 0.0368381622687682466526634;
      0.0273139698006629537455404; 0.0100962716435030437817055; 0.0195181067555849392224199;
      0.0117224275470949786864925; (-0.00442773155233893239996431); 0.0156214785078803432781324;
      (-0.0101774221315738297143270); 0.0135061258938431808485310]%Q
  | 24 => [
      0.0295284942030736546025272; 0.0281530651743695026834932; 0.00519730128072174996473824;
      0.0259897467786242920448933; 0.00146378160153344429844948; 0.0166609651269037212368055;
      0.0281343344093849194875108; 0.00214364311909247909952968; 0.0331943417648083019611294;
      (-0.0142483904822400753741381); 0.0416812529998231580614934; 0.00323522898964475022578598;
      0.000813552611571786631179287; 0.00228403610697848813660369; 0.0338971925236628645848112;
      (-0.00644725595698339499416262)]%Q
  | _ => []
  end.
Definition ls_wp (order : nat) : list nat :=
  match order with
  | 2 => [
      0]
  | 4 => [
      0; 0; 0]
  | 6 => [
      0; 1; 0; 1; 1; 0]
  | 8 => [
      0; 1; 1; 0; 1; 2; 1; 1; 1; 0]
  | 10 => [
      0; 1; 2; 1; 0; 1; 3; 3; 1; 2; 3; 2; 1; 1; 0]
  | 12 => [
      0; 1; 2; 2; 1; 0; 1; 3; 4; 3; 1; 2; 4; 4; 2; 2; 3; 2; 1; 1; 0]
  | 14 => [
      0; 1; 2; 3; 2; 1; 0; 1; 4; 5; 5; 4; 1; 2; 5; 6; 5; 2; 3; 5; 5; 3; 2; 4; 2; 1; 1; 0]
  | 16 => [
      0; 1; 2; 3; 3; 2; 1; 0; 1; 4; 5; 6; 5; 4; 1; 2; 5; 7; 7; 5; 2; 3; 6; 7; 6; 3; 3; 5; 5; 3; 2; 4; 2; 1;
      1; 0]
  | 18 => [
      0; 1; 2; 3; 4; 3; 2; 1; 0; 1; 5; 6; 7; 7; 6; 5; 1; 2; 6; 8; 9; 8; 6; 2; 3; 7; 9; 9; 7; 3; 4; 7; 8; 7;
      4; 3; 6; 6; 3; 2; 5; 2; 1; 1; 0]
  | 20 => [
      0; 1; 2; 3; 4; 4; 3; 2; 1; 0; 1; 5; 6; 7; 8; 7; 6; 5; 1; 2; 6; 9; 10; 10; 9; 6; 2; 3; 7; 10; 11; 10;
      7; 3; 4; 8; 10; 10; 8; 4; 4; 7; 9; 7; 4; 3; 6; 6; 3; 2; 5; 2; 1; 1; 0]
  | 22 => [
      0; 1; 2; 3; 4; 5; 4; 3; 2; 1; 0; 1; 6; 7; 8; 9; 9; 8; 7; 6; 1; 2; 7; 10; 11; 12; 11; 10; 7; 2; 3; 8;
      11; 13; 13; 11; 8; 3; 4; 9; 12; 13; 12; 9; 4; 5; 9; 11; 11; 9; 5; 4; 8; 10; 8; 4; 3; 7; 7; 3; 2; 6;
      2; 1; 1; 0]
  | 24 => [
      0; 1; 2; 3; 4; 5; 5; 4; 3; 2; 1; 0; 1; 6; 7; 8; 9; 10; 9; 8; 7; 6; 1; 2; 7; 11; 12; 13; 13; 12; 11;
      7; 2; 3; 8; 12; 14; 15; 14; 12; 8; 3; 4; 9; 13; 15; 15; 13; 9; 4; 5; 10; 13; 14; 13; 10; 5; 5; 9; 12;
      12; 9; 5; 4; 8; 11; 8; 4; 3; 7; 7; 3; 2; 6; 2; 1; 1; 0]
  | _ => []
  end.
Definition ls_orders : list nat := [2; 4; 6; 8; 10; 12; 14; 16; 18; 20; 22; 24].
(** LevelSymmetric.cc 55-379: the weights of one octant; default: THROW *)
Definition ls_set (order nao : nat) : res (list R * list R) :=
  if existsb (Nat.eqb order) ls_orders then
    do w <- mapM (fun m => do k <- rd (ls_wp order) m; do v <- rd (ls_wtt order) k; Ok (Q2R v)) (seq 0 nao);
    Ok (map Q2R (ls_att order), w)
  else Err.
(** LevelSymmetric.cc 37-49: the two loops, m counting the angles *)
Definition ls_pairs (h : nat) : list (nat * nat) :=
  flat_map (fun i => map (fun j => (i, j)) (seq 0 (h - i))) (seq 0 h).
Definition ls_fill (att : list R) (scale : R) (h : nat) (mu eta xi wt : list R)
    : res (nat * (list R * list R * list R * list R)) :=
  foldM (fun (s : nat * (list R * list R * list R * list R)) ij =>
    let '(m, (mu, eta, xi, wt)) := s in
    do a <- rd att (fst ij); do mu <- wr mu m a;
    do b <- rd att (snd ij); do eta <- wr eta m b;
    do xi <- wr xi m (sqrt (1 - a * a - b * b))%R;
    do w <- rd wt m; do wt <- wr wt m (w * scale)%R;
    Ok (S m, (mu, eta, xi, wt))) (ls_pairs h) (0, (mu, eta, xi, wt)).
(** LevelSymmetric.cc 19-53 *)
Definition level_symmetric (np dim : nat) : res quad :=
  do q <- quad_new dim (2 * np * (2 * np + 2) / 8 * 2 ^ dim);
  let order := 2 * np in
  do aw <- ls_set order (q_nao q);
  let scale := (if dim =? 3 then 1 / 2 * PI else PI)%R in
  do r <- ls_fill (fst aw) scale (order / 2) (q_mu q) (q_eta q) (q_xi q) (snd aw);
  let '(_, (mu, eta, xi, wt)) := r in
  Ok (with_cosines q mu eta xi wt).

(** ** Polar rules on [-1, 1]: abscissae and weights; [m] is half the size. *)

(** TabuchiYamamoto.cc 24-38 *)
Definition ty_x : list (list Q) :=
  [ [0.60241373004273; 0.00000000000000; 0.00000000000000; 0.00000000000000; 0.00000000000000];
    [0.43609630817057; 0.93143802262953; 0.00000000000000; 0.00000000000000; 0.00000000000000];
    [0.35999560258981; 0.84313177033664; 0.98601645224408; 0.00000000000000; 0.00000000000000];
    [0.31419680881426; 0.77373902177668; 0.95657266606026; 0.99649075402511; 0.00000000000000];
    [0.27848958159945; 0.71163434521951; 0.92067315806606; 0.98603002556249; 0.99890322247706] ]%Q.
Definition ty_w : list (list Q) :=
  [ [1.00000000000000; 0.00000000000000; 0.00000000000000; 0.00000000000000; 0.00000000000000];
    [0.78714600000000; 0.21285400000000; 0.00000000000000; 0.00000000000000; 0.00000000000000];
    [0.67014800000000; 0.28361900000000; 0.04623300000000; 0.00000000000000; 0.00000000000000];
    [0.59426914000000; 0.30817276000000; 0.08582263000000; 0.01173545000000; 0.00000000000000];
    [0.53269822000000; 0.31699288000000; 0.11831753000000; 0.02830905000000; 0.00368232000000] ]%Q.
(** TabuchiYamamoto.cc 16-48; [d_m] points.  Element m - i - 1 of the row is
    read before element i; both loops' writes are listed by position. *)
Definition ty_rule (d_m : nat) : res (list R * list R) :=
  if negb (d_m mod 2 =? 0) then Err else
  if negb (d_m / 2 <? 6) then Err else
  let m := d_m / 2 in
  do lo <- mapM (fun i => do r <- rd ty_x (m - 1); do v <- rd r (m - i - 1); Ok (- Q2R v)%R) (seq 0 m);
  do hi <- mapM (fun i => do r <- rd ty_x (m - 1); do v <- rd r i; Ok (Q2R v)) (seq 0 m);
  do wlo <- mapM (fun i => do r <- rd ty_w (m - 1); do v <- rd r (m - i - 1); Ok (Q2R v)) (seq 0 m);
  do whi <- mapM (fun i => do r <- rd ty_w (m - 1); do v <- rd r i; Ok (Q2R v)) (seq 0 m);
  Ok (lo ++ hi, wlo ++ whi).

(** TriGauss.hh 40-109: the tables; other sizes throw (a larger size is only
    refused by a Require, which is off, before). *)
Definition tg_x (m : nat) : list Q :=
  match m with
  | 1 => [
      0.7071067811865475244008445]%Q
  | 2 => [
      0.970028106554334; 0.480049092416837]%Q
  | 3 => [
      0.983720409069126; 0.707106781186548; 0.179705750550371]%Q
  | 4 => [
      9.937172857099943e-01; 8.665969087139184e-01; 4.990088153604910e-01; 1.119194178021024e-01]%Q
  | 5 => [
      0.997101416593042; 0.932984999374027; 0.707106781186548; 0.359915255224124; 0.076083934100109]%Q
  | 6 => [
      0.998487324664592; 0.963239238930980; 0.824493558075628; 0.565871339344723; 0.268645060597933;
      0.054982383398188]%Q
  | _ => []
  end.
Definition tg_w (m : nat) : list Q :=
  match m with
  | 1 => [
      1.0]%Q
  | 2 => [
      0.144806658914468; 0.855193341085532]%Q
  | 3 => [
      0.079338724686562; 0.486356182323044; 0.434305092990394]%Q
  | 4 => [
      3.123105861536087e-02; 2.526724420559626e-01; 4.388001783990736e-01; 2.772963209296030e-01]%Q
  | 5 => [
      0.014556433410266; 0.134916240529173; 0.310026530523421; 0.349734629912457; 0.190766165624683]%Q
  | 6 => [
      0.007642068937484; 0.076559758219347; 0.204518429695601; 0.297990225104937; 0.274508539542121;
      0.138780978500511]%Q
  | _ => []
  end.
(** Writing x[i] at position d_m - i - 1 and -x[i] at position i for every i < m. *)
Definition mirrored (x w : list R) : list R * list R := (map Ropp x ++ rev x, w ++ rev w).
(** TriGauss.hh 28-118 *)
Definition tg_rule (d_m : nat) : res (list R * list R) :=
  let m := d_m / 2 in
  if negb (d_m mod 2 =? 0) then UB else
  if (0 <? m) && (m <? 7) then Ok (mirrored (map Q2R (tg_x m)) (map Q2R (tg_w m))) else Err.

(** AbuShumaysDoubleRange.cc 38-324: sines of the polar angles and weights; other sizes throw. *)
Definition dr_a (n : nat) : list Q :=
  match n with
  | 1 => [
      0.7853981633974483]%Q
  | 2 => [
      0.3993735638823956; 0.9144479484659753]%Q
  | 3 => [
      0.2311522961278847; 0.6399711962340753; 0.9544967673433067]%Q
  | 4 => [
      0.149249146573134; 0.4452174134055993; 0.7657198751837065; 0.971840383889606]%Q
  | 5 => [
      0.1039469054750266; 0.3218997600306228; 0.5925641316724047; 0.8367574981862629; 0.9808766137326722]%Q
  | 6 => [
      0.764222577018977E-1; 0.2418380224706412; 0.4624149310771195; 0.69176378901922; 0.8801887364309769;
      0.9861717557161557]%Q
  | 7 => [
      0.5849788427341292E-1; 0.1876744099204198; 0.3673808738342405; 0.5691413298688445; 0.76007398923149;
      0.9084990189032058; 0.9895378462166649]%Q
  | 8 => [
      0.4619235546732977E-1; 0.1495785939929699; 0.2974141685414306; 0.4714033535759624;
      0.6494576043472951; 0.8085613275367436; 0.9279142834477891; 0.9918094732391086]%Q
  | 9 => [
      0.373871754313704E-1; 0.1218673184482112; 0.2449791366335987; 0.3944837657444153; 0.5551788717532553;
      0.7104369578733888; 0.8440015993098882; 0.9417816602325884; 0.9934143180700493]%Q
  | 10 => [
      0.3087344674320983E-1; 0.1011256691908164; 0.2049120334874169; 0.3337559301018391; 0.47692469846783;
      0.6222949084152428; 0.7574090067646704; 0.8705939190886369; 0.9520192454053205; 0.9945898978711666]%Q
  | 11 => [
      0.259214348332132E-1; 0.8521935262972822E-1; 0.1737212859610505; 0.2853788554402115;
      0.4124302930568668; 0.545908389315292; 0.6762815928489082; 0.7941615804130648; 0.8910104077090977;
      0.9597863457139877; 0.9954766828497256]%Q
  | 12 => [
      0.2206987544161146E-1; 0.7276548794207686E-1; 0.1490240471276492; 0.2464178213464814;
      0.3592090638180165; 0.4806598424300749; 0.6034329607303313; 0.7200483966382738; 0.8233578535894617;
      0.9070015920820176; 0.9658155920819829; 0.9961620595917704]%Q
  | 13 => [
      0.190157862781181E-1; 0.6283891176988711E-1; 0.1291669489733978; 0.2146859046048244;
      0.3150698520346282; 0.425176468911348; 0.5393050111837124; 0.6514970179728065; 0.7558583950754834;
      0.846881415042289; 0.9197467199541607; 0.9705877364229169; 0.9967027009889732]%Q
  | 14 => [
      0.1655357842785945E-1; 0.5480298212338539E-1; 0.1129813228893869; 0.1885598024182952;
      0.2782189669515478; 0.3779758905459106; 0.483354614232666; 0.5895884420495059; 0.6918416750813907;
      0.7854377100908073; 0.8660809241804746; 0.9300608506655752; 0.9744285442429917; 0.9971366642642528]%Q
  | 15 => [
      0.1453980971214771E-1; 0.4820858869899936E-1; 0.9962575637202815E-1; 0.1668286525539518;
      0.247229707903158; 0.3377013939031784; 0.4346915962513905; 0.5343624719763381; 0.6327454393360694;
      0.7259042142853639; 0.8100978365440864; 0.8819361061028814; 0.9385205574600149; 0.9775649540709922;
      0.9974902738450473]%Q
  | _ => []
  end.
Definition dr_b (n : nat) : list Q :=
  match n with
  | 1 => [
      0.2E1]%Q
  | 2 => [
      0.5010918381152245; 0.1498908161884776E1]%Q
  | 3 => [
      0.1706016479452537; 0.6829125158656247; 0.1146485836189122E1]%Q
  | 4 => [
      0.7210020864182995E-1; 0.3302019567476854; 0.6776788331337992; 0.9200190014766855]%Q
  | 5 => [
      0.3530233934872431E-1; 0.1745260006417964; 0.3987720643885643; 0.6254719597163901; 0.7659276359045249]%Q
  | 6 => [
      0.1920436605371306E-1; 0.9964572033500919E-1; 0.243394408480036; 0.415494935541075;
      0.5670894260317977; 0.655171143558369]%Q
  | 7 => [
      0.1130288664498013E-1; 0.6059668882540333E-1; 0.1548577023350282; 0.2795356837349958;
      0.408359039083128; 0.5133389971363539; 0.5720090022401106]%Q
  | 8 => [
      0.7070596107672168E-2; 0.3879562306402765E-1; 0.1024016241431204; 0.1923042113259944;
      0.2943821042432288; 0.3912388348106103; 0.4664219853334316; 0.5073850209719148]%Q
  | 9 => [
      0.4643065076049817E-2; 0.259137055013675E-1; 0.7006244894417409E-1; 0.1354951021927222;
      0.2146387592743282; 0.2967844729635604; 0.3706102754254009; 0.4260782931411163; 0.4557738774812805]%Q
  | 10 => [
      0.317192548389715E-2; 0.1793256207590737E-1; 0.4938267089469711E-1; 0.9768026105928111E-1;
      0.1588277298633008; 0.2262349688595732; 0.29226033258076; 0.3494452142568355; 0.39143378370197;
      0.4136305512237778]%Q
  | 11 => [
      0.2239168223242646E-2; 0.1278609020279452E-1; 0.3571984407731606E-1; 0.7192019606102708E-1;
      0.1193656258066426; 0.1740015513470782; 0.2306960076947862; 0.2840568417450768; 0.3290675185193199;
      0.3615644996448663; 0.3785826566778497]%Q
  | 12 => [
      0.1625008098812313E-2; 0.9352495000167818E-2; 0.2642849768723387E-1; 0.5397608657841666E-1;
      0.9107347191808735E-1; 0.1352375815741906; 0.1830231517042723; 0.2305709517590055;
      0.2740530323427262; 0.3100184495077959; 0.3356558712699347; 0.3489854025593568]%Q
  | 13 => [
      0.1207468708743215E-2; 0.6993516363714714E-2; 0.1994654540921309E-1; 0.4121379610227348E-1;
      0.7048445872346682E-1; 0.1062573893438944; 0.1462194120104745; 0.1876167252194712;
      0.2275704275088438; 0.2633290245190361; 0.2924659823505597; 0.3130314389266094; 0.3236638148136996]%Q
  | 14 => [
      0.9156938974039617E-3; 0.5331012020952745E-2; 0.1532101378791769E-1; 0.3196191025679207E-1;
      0.5527736741151233E-1; 0.8438398073696996E-1; 0.1177312073753468; 0.1533547657512768;
      0.1891023104848334; 0.2228197138483984; 0.2525002447442476; 0.2764024505279778; 0.293141514050202;
      0.3017568151061684]%Q
  | 15 => [
      0.7068830110205541E-3; 0.4132909575263126E-2; 0.1195308097311956E-1; 0.2513687784360474E-1;
      0.4388448158131325E-1; 0.6770273244117886E-1; 0.9555753069484589E-1; 0.1260476011692554;
      0.1575670106423901; 0.1884437898269261; 0.2170534569913444; 0.2419105398978403; 0.2617415950418412;
      0.2755422071013228; 0.2826193032087338]%Q
  | _ => []
  end.
(** AbuShumaysDoubleRange.cc 17-35; an odd size leaves the middle entries at
    their initial zero, d_x has then 2 m + 1 elements. *)
Definition dr_rule (d_m : nat) : res (list R * list R) :=
  let m := d_m / 2 in
  if negb (m <? 16) then Err else
  if m =? 0 then Ok (repeat 0%R d_m, repeat 0%R d_m) else
  let x := map (fun v => sqrt (1 - Q2R v * Q2R v))%R (dr_a m) in
  let w := map (fun v => (1 / 2 * Q2R v)%R) (dr_b m) in
  let gap := repeat 0%R (d_m mod 2) in
  Ok (map Ropp x ++ gap ++ rev x, w ++ gap ++ rev w).

(** AbuShumaysQuadrupleRange.cc 34-563: cosines of the azimuths and weights; other sizes throw. *)
Definition qr_a (n : nat) : list Q :=
  match n with
  | 2 => [
      0.328861319306339; 0.9443782254288237]%Q
  | 4 => [
      0.1119194178021025; 0.4990088153604911; 0.8665969087139183; 0.9937172857099943]%Q
  | 6 => [
      0.5498238339818787E-1; 0.2686450605979331; 0.5658713393447228; 0.8244935580756284;
      0.9632392389309796; 0.9984873246645922]%Q
  | 8 => [
      0.3248697884632087E-1; 0.1639512569400686; 0.370037938547133; 0.6006186663088213; 0.7995356262740346;
      0.9290166435730784; 0.9864684411311756; 0.9994721587945503]%Q
  | 10 => [
      0.2140636649836879E-1; 0.1096782080789725; 0.2554062770706209; 0.4359965790249476;
      0.6217587837057514; 0.7832087939271013; 0.8999483224488741; 0.9668338190366146; 0.9939671476827519;
      0.9997708574835223]%Q
  | 12 => [
      0.1515427633810212E-1; 0.7829331784823644E-1; 0.1853856824160965; 0.3250513900479526;
      0.481334101720309; 0.6359378348511013; 0.7717402867577236; 0.8765372111445716; 0.945696353925452;
      0.982665837787759; 0.99693036686637; 0.9998851673610667]%Q
  | 14 => [
      0.1128664599103795E-1; 0.5860802825933166E-1; 0.1401592977980301; 0.2496535423349043;
      0.3780145294131805; 0.5141044083621162; 0.6460952816893911; 0.7632567634673841; 0.8577276125336286;
      0.92579966275244; 0.9683352254253865; 0.9901289669738802; 0.9982810721553091; 0.9999363037825324]%Q
  | 16 => [
      0.8729657082861998E-2; 0.4548138640446708E-1; 0.1094657179495637; 0.1969448911359501;
      0.3024482742232713; 0.4190211144820449; 0.5387770134090762; 0.6537245138927594; 0.7567326211652801;
      0.8424484137453142; 0.9079764895735049; 0.9531657995434818; 0.9804145602016775; 0.993990571682542;
      0.9989651863256935; 0.9999618958176435]%Q
  | 18 => [
      0.6952010366745025E-2; 0.3630329822321955E-1; 0.877584299640462E-1; 0.1589616059026264;
      0.2464422434563339; 0.3457022371739597; 0.4514464196113868; 0.5579698061333865; 0.6596626820591664;
      0.7515618044435914; 0.8298612507181373; 0.8922982294166338; 0.9383442668940432; 0.9691574797937686;
      0.9872847653280476; 0.996141786077788; 0.9993408180086091; 0.9999758344839443]%Q
  | 20 => [
      0.5666555435801935E-2; 0.29639792746951E-1; 0.7187424763201411E-1; 0.1308135974586322;
      0.2041579376098809; 0.2888941786344192; 0.3813947484262091; 0.4776033421571356; 0.5732994237606388;
      0.6644147983089062; 0.7473640182589308; 0.8193459408062747; 0.8785755787411428; 0.9244122705118689;
      0.9573610361567596; 0.9789379635660678; 0.9914069813754243; 0.997413701794462; 0.9995606448264746;
      0.9999839449458641]%Q
  | 22 => [
      0.4707114717103505E-2; 0.2465173376735076E-1; 0.5991670409568439E-1; 0.1094334822143285;
      0.1716206775350476; 0.2443940481368066; 0.3252092377487526; 0.4111529714803756; 0.4990835442262655;
      0.5858114200649882; 0.668303327234281; 0.7438888779969691; 0.8104473950364958; 0.8665538736181088;
      0.9115663629395599; 0.945642084344217; 0.9696760021962513; 0.9851631047914915; 0.9939941211951136;
      0.998203380364097; 0.9996960998334762; 0.9999889214741531]%Q
  | 24 => [
      0.3972127715469235E-2; 0.208221968421092E-1; 0.5069784852121022E-1; 0.9284156235089204E-1;
      0.1461314233398479; 0.2090839313632731; 0.2798722573569018; 0.3563718475936031; 0.4362363542057792;
      0.5170013989086162; 0.5962091754811982; 0.671543718038901; 0.740964934907509; 0.802829134419043;
      0.855984552154146; 0.8998321194918805; 0.9343442118634447; 0.9600372490491982; 0.9778976989673706;
      0.9892651854344568; 0.9956808948153246; 0.9987140372275341; 0.9997831945570342; 0.9999921110695884]%Q
  | 26 => [
      0.3396696521564986E-2; 0.1781892050929334E-1; 0.4344484549656114E-1; 0.7972274758288012E-1;
      0.1258351250930473; 0.180699198021927; 0.2429742598458005; 0.3110847255339362; 0.3832618562348258;
      0.4576040998675997; 0.5321533124724104; 0.6049820056372407; 0.6742853437025943; 0.7384709034673433;
      0.7962391430061333; 0.8466480095202735; 0.8891560536735741; 0.9236397293076104; 0.950382182881958;
      0.9700327360725438; 0.9835384079100482; 0.9920511686867856; 0.9968170762571418; 0.9990558269685333;
      0.9998412304320539; 0.9999942312097307]%Q
  | 28 => [
      0.2937783068161103E-2; 0.1542057328035316E-1; 0.3763822344160284E-1; 0.6917953054276372E-1;
      0.1094349422308658; 0.1575965218033132; 0.2126604305088603; 0.2734385687346029; 0.3385818199466888;
      0.4066156050266695; 0.4759868689664975; 0.5451202571507631; 0.6124802047142074; 0.6766350014909858;
      0.736318595960535; 0.7904859257654386; 0.8383578622783268; 0.8794523867563669; 0.9135993376468678;
      0.9409369538930799; 0.9618894682490145; 0.9771261644720124; 0.9875035880013286; 0.9939939604539492;
      0.9976042264113975; 0.9992914310330896; 0.999881095890759; 0.9999956847060113]%Q
  | 30 => [
      0.2565935816040464E-2; 0.1347516554782726E-1; 0.3291878087349994E-1; 0.6058415580193666E-1;
      0.960076213078193E-1; 0.1385744973107413; 0.1875194470293309; 0.2419322530851564; 0.300770887782924;
      0.3628827241348177; 0.4270337881301431; 0.4919450854898168; 0.5563343213452209; 0.6189608105599492;
      0.6786710589083211; 0.7344423692845193; 0.7854218707108751; 0.8309585566641411; 0.870626230286233;
      0.9042356682830091; 0.9318348182615274; 0.9536964260509063; 0.9702931438061076; 0.9822608904897995;
      0.9903520125162948; 0.9953805988921094; 0.9981630929190713; 0.9994580300671972; 0.9999092058349391;
      0.9999967079812753]%Q
  | _ => []
  end.
Definition qr_b (n : nat) : list Q :=
  match n with
  | 2 => [
      0.7853981633974483; 0.7853981633974483]%Q
  | 4 => [
      0.2790495092691071; 0.5063486541283412; 0.5063486541283412; 0.2790495092691071]%Q
  | 6 => [
      0.1389912271015858; 0.2849847975948065; 0.361422138701056; 0.361422138701056; 0.2849847975948065;
      0.1389912271015858]%Q
  | 8 => [
      0.8261058789185801E-1; 0.1780108196819361; 0.2453650131486301; 0.2794117426750241;
      0.2794117426750241; 0.2453650131486301; 0.1780108196819361; 0.8261058789185801E-1]%Q
  | 10 => [
      0.545988342771959E-1; 0.1206689353273136; 0.1734506495359569; 0.2093517367248734; 0.2273280075321085;
      0.2273280075321085; 0.2093517367248734; 0.1734506495359569; 0.1206689353273136; 0.545988342771959E-1]%Q
  | 12 => [
      0.3871995573990722E-1; 0.8683898824818842E-1; 0.1279220161079748; 0.1595962888003237;
      0.1808538704864877; 0.1914670440145664; 0.1914670440145664; 0.1808538704864877; 0.1595962888003237;
      0.1279220161079748; 0.8683898824818842E-1; 0.3871995573990722E-1]%Q
  | 14 => [
      0.2886965398857025E-1; 0.6534816595720066E-1; 0.9778151915986106E-1; 0.124592860220795;
      0.1449498625863828; 0.1585386998315389; 0.1653174016530996; 0.1653174016530996; 0.1585386998315389;
      0.1449498625863828; 0.124592860220795; 0.9778151915986106E-1; 0.6534816595720066E-1;
      0.2886965398857025E-1]%Q
  | 16 => [
      0.2234563433970334E-1; 0.5089471201185089E-1; 0.7696546183192337E-1; 0.9948832189094168E-1;
      0.1178163725528086; 0.1316318495967909; 0.1408332013024988; 0.1454226098709307; 0.1454226098709307;
      0.1408332013024988; 0.1316318495967909; 0.1178163725528086; 0.9948832189094168E-1;
      0.7696546183192337E-1; 0.5089471201185089E-1; 0.2234563433970334E-1]%Q
  | 18 => [
      0.1780448256851573E-1; 0.4072837739441321E-1; 0.620551874722286E-1; 0.8104138647658412E-1;
      0.9719456818914889E-1; 0.1102303994594047; 0.1200213906455903; 0.1265362696526889;
      0.1297861015388739; 0.1297861015388739; 0.1265362696526889; 0.1200213906455903; 0.1102303994594047;
      0.9719456818914889E-1; 0.8104138647658412E-1; 0.620551874722286E-1; 0.4072837739441321E-1;
      0.1780448256851573E-1]%Q
  | 20 => [
      0.145177950931735E-1; 0.3331533618587398E-1; 0.5104054858395153E-1; 0.67163625891037E-1;
      0.8131097620559026E-1; 0.9324211470049753E-1; 0.1028266819400935; 0.1100123318316945;
      0.1147920152181985; 0.117176737747338; 0.117176737747338; 0.1147920152181985; 0.1100123318316945;
      0.1028266819400935; 0.9324211470049753E-1; 0.8131097620559026E-1; 0.67163625891037E-1;
      0.5104054858395153E-1; 0.3331533618587398E-1; 0.145177950931735E-1]%Q
  | 22 => [
      0.1206308084642689E-1; 0.2774821193462954E-1; 0.4268848001641819E-1; 0.5649746567994538E-1;
      0.6889030401909524E-1; 0.7966885558279603E-1; 0.8871167329713092E-1; 0.9595714699102763E-1;
      0.1013841131358227; 0.1049937517313658; 0.10679508016279; 0.10679508016279; 0.1049937517313658;
      0.1013841131358227; 0.9595714699102763E-1; 0.8871167329713092E-1; 0.7966885558279603E-1;
      0.6889030401909524E-1; 0.5649746567994538E-1; 0.4268848001641819E-1; 0.2774821193462954E-1;
      0.1206308084642689E-1]%Q
  | 24 => [
      0.1018170331312922E-1; 0.2346349353303599E-1; 0.3621292193062666E-1; 0.4814205277021821E-1;
      0.5903176230890425E-1; 0.6872060753743357E-1; 0.7710072080607362E-1; 0.8410905852056142E-1;
      0.8971603507554962E-1; 0.9391384633073917E-1; 0.9670612366917621E-1; 0.9809983760200038E-1;
      0.9809983760200038E-1; 0.9670612366917621E-1; 0.9391384633073917E-1; 0.8971603507554962E-1;
      0.8410905852056142E-1; 0.7710072080607362E-1; 0.6872060753743357E-1; 0.5903176230890425E-1;
      0.4814205277021821E-1; 0.3621292193062666E-1; 0.2346349353303599E-1; 0.1018170331312922E-1]%Q
  | 26 => [
      0.870818485865091E-2; 0.2009672209559701E-1; 0.3109543899569998E-1; 0.4148557359431433E-1;
      0.510968162469414E-1; 0.5979803209497304E-1; 0.6749583467970308E-1; 0.7413013546424966E-1;
      0.7966752788841578E-1; 0.8409386224353523E-1; 0.8740711539780842E-1; 0.8961127788931235E-1;
      0.9071164194824712E-1; 0.9071164194824712E-1; 0.8961127788931235E-1; 0.8740711539780842E-1;
      0.8409386224353523E-1; 0.7966752788841578E-1; 0.7413013546424966E-1; 0.6749583467970308E-1;
      0.5979803209497304E-1; 0.510968162469414E-1; 0.4148557359431433E-1; 0.3109543899569998E-1;
      0.2009672209559701E-1; 0.870818485865091E-2]%Q
  | 28 => [
      0.7532680050608221E-2; 0.1740393870836662E-1; 0.2698374387900945E-1; 0.3610294286409177E-1;
      0.4462772409676748E-1; 0.5245143079823476E-1; 0.5949430183433835E-1; 0.6570130151997985E-1;
      0.7103829899589742E-1; 0.7548738262548303E-1; 0.7904202969199018E-1; 0.8170266224145589E-1;
      0.834729185573813E-1; 0.8435680753384398E-1; 0.8435680753384398E-1; 0.834729185573813E-1;
      0.8170266224145589E-1; 0.7904202969199018E-1; 0.7548738262548303E-1; 0.7103829899589742E-1;
      0.6570130151997985E-1; 0.5949430183433835E-1; 0.5245143079823476E-1; 0.4462772409676748E-1;
      0.3610294286409177E-1; 0.2698374387900945E-1; 0.1740393870836662E-1; 0.7532680050608221E-2]%Q
  | 30 => [
      0.6579962619041378E-2; 0.1521696776845086E-1; 0.2363209088631991E-1; 0.3169244521291083E-1;
      0.3929176131897425E-1; 0.4634296332807871E-1; 0.5277837509680457E-1; 0.5854875269926412E-1;
      0.6362110627094798E-1; 0.6797575914341677E-1; 0.7160310605662001E-1; 0.745004453275371E-1;
      0.7666914603657626E-1; 0.781123059148995E-1; 0.7883297571760606E-1; 0.7883297571760606E-1;
      0.781123059148995E-1; 0.7666914603657626E-1; 0.745004453275371E-1; 0.7160310605662001E-1;
      0.6797575914341677E-1; 0.6362110627094798E-1; 0.5854875269926412E-1; 0.5277837509680457E-1;
      0.4634296332807871E-1; 0.3929176131897425E-1; 0.3169244521291083E-1; 0.2363209088631991E-1;
      0.1521696776845086E-1; 0.6579962619041378E-2]%Q
  | _ => []
  end.
(** ** The azimuthal rule on [0, pi/2] *)

(** AbuShumaysQuadrupleRange.cc 17-31; stored backwards *)
Definition qr_rule (d_m : nat) : res (list R * list R) :=
  if negb (d_m <=? 30) then Err else
  if d_m =? 0 then Ok ([], []) else
  if d_m mod 2 =? 1 then Err else
  Ok (rev (map (fun v => acos (Q2R v)) (qr_a d_m)), rev (map Q2R (qr_b d_m))).
