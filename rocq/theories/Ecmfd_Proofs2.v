(** * Ecmfd_Proofs2: the coarse eigenvalue problem of a mode, and repeated updates. *)
From Coquelicot Require Import Coquelicot.
From Coq Require Import FunctionalExtensionality.
From Verif Require Import Base BaseR Loop Mesh_Model Mesh_Spec Mesh_Proofs Material_Model Material_Spec Material_Proofs Matrix_Model Matrix_Spec Angle_Model Angle_Spec
  Boundary_Model Boundary_Spec Cell_Spec Sweep_Model Sweep_Spec Region_Model Region_Spec Region_Proofs Homog_Proofs Tally_Model Tally_Spec Tally_Proofs
  Diffusion_Model Diffusion_Spec Diffusion_Proofs Cmfd_Model Cmfd_Spec Cmfd_Proofs Cmfd_Proofs2 Cmfd_Proofs3 Cmfd_Proofs4 Cmfd_Proofs5 Ecmfd_Model Ecmfd_Spec Ecmfd_Proofs.
Open Scope nat_scope.
Set Implicit Arguments. Unset Strict Implicit.

Section Steady.
Variables (U : problem) (C : cmesh) (level : nat).
Let m := u_mesh U.
Let D := Mesh_Model.dim m.
Let n := ncells m.
Let x := u_mat U.
Let G := ng x.
Hypothesis HP : problem_ok U.
Hypothesis HC : coarse_mesh D (grid_of U 0) level = Ok C.
Hypothesis HU1 : u_mult U = false.
Hypothesis HU2 : u_dc U = PHI_D.
Variables (phi : list (list R)) (cur : option (list (list R))) (T : nat -> tally).
Hypothesis HF : positive_flux U phi.
Hypothesis HCU : current_ok U cur.
Hypothesis HT : forall g, g < G -> readable C (T g).
Variables (cm : mesh) (cmap : list nat) (cmat : mtl) (fl : list (list R)).
Hypothesis GC : coarse_good U C cm.
Hypothesis EM : coarse_map C = Ok cmap.
Hypothesis GM : good_mat U cm cmap phi cur cmat fl.
Variable srt : list triplet -> list triplet.
Hypothesis HS : is_sort srt.
Let nc := ncells cm.
Let fl' := fun g c => nth c (nth g fl []) 0%R.
Let K0 := operator U C cm cmat T 1 0.
Let F0 := {| f_mesh := cm; f_mat := cmat; f_adj := u_adj U |}.
Local Notation idx I J L := (Mesh_Model.index (cm_n C 0) (cm_n C 1) I J L).

(** What previous updates of the same flux leave. *)
Definition steady (h : option hist) : Prop :=
  match h with
  | None => True
  | Some o => cmfd_reach srt K0 (Some (e_loss o)) /\ (forall g c leak, e_hat o g c leak = snd (k_coef K0 fl' g c leak)) /\
              exists caps, cleared (e_gain o) = preallocate caps /\ length caps = G * nc /\ roomy caps (gain_ops F0)
  end.
Lemma coef_same al h g c leak : steady h -> k_coef (eoperator U C cm cmat T al h) fl' g c leak = k_coef K0 fl' g c leak.
Proof.
  intros ST. destruct h as [o|].
  - destruct ST as (_ & EH & _). specialize (EH g c leak). unfold k_coef in EH |- *.
    cbn [eoperator K0 operator k_mesh k_mat k_bc k_zero k_correct k_old k_J k_cur] in EH |- *.
    change (k_J (eoperator U C cm cmat T al (Some o)) g c leak) with (k_J K0 g c leak).
    change (k_al (eoperator U C cm cmat T al (Some o))) with al. change (k_al K0) with 1%R. change (k_al (operator U C cm cmat T 1 0)) with 1%R in EH.
    change (k_J (operator U C cm cmat T 1 0) g c leak) with (k_J K0 g c leak) in EH. change (k_al K0) with 1%R in EH. rewrite EH. clear EH.
    destruct (on_edge cm c leak).
    + cbn [fst snd]. f_equal. ring.
    + destruct (_ && _); cbn [fst snd]; f_equal; ring.
  - reflexivity.
Qed.
Lemma ops_same al h : steady h -> cmfd_ops (eoperator U C cm cmat T al h) fl' = cmfd_ops K0 fl'.
Proof.
  intros ST. assert (E : k_coef (eoperator U C cm cmat T al h) fl' = k_coef K0 fl').
  { do 3 (apply functional_extensionality; intros ?). apply coef_same. exact ST. }
  unfold cmfd_ops, cmfd_row_ops. cbv zeta. rewrite E. cbn [K0 operator k_fis eoperator]. rewrite HU1. reflexivity.
Qed.

(** The matrices, and what they do to the averages. *)
Lemma step alpha h : steady h -> alpha <> None \/ h = None -> exists v h' y z,
  ecoarse srt U C T cur alpha h phi = Ok (cm, cmap, unit_of v, h') /\ steady (Some h') /\
  length v = G * nc /\ (forall g c, g < G -> c < nc -> nth (c + g * nc) v 0%R = (RS U cmap c (val2 phi g) / vol cm c)%R) /\
  multiply (e_loss h') v = Ok y /\ length y = G * nc /\ multiply (e_gain h') v = Ok z /\ length z = G * nc /\
  (forall w, length w = G * nc -> exists t, multiply (e_gain h') w = Ok t /\ length t = G * nc /\
     forall g c, g < G -> c < nc -> nth (c + g * nc) t 0%R = rsum G (fun gp => birth (u_adj U) cmat g gp c * nth (c + gp * nc) w 0)%R) /\
  forall g I J L, g < G -> I < cm_n C 0 -> J < cm_n C 1 -> L < cm_n C 2 ->
  let c := idx I J L in
  (vol cm c * nth (c + g * nc) z 0 = rsum G (fun gp => birth (u_adj U) cmat g gp c * RS U cmap c (val2 phi gp)))%R /\
  (vol cm c * nth (c + g * nc) y 0 = Tally_Spec.net_leakage C (T g) I J L + RS U cmap c (fun i => st x g (mt m i) * val2 phi g i) -
     rsum G (fun gp => into (u_adj U) cmat g gp c * RS U cmap c (val2 phi gp)))%R.
Proof.
  intros ST HA.
  destruct (averages_ok HP HC GC EM (proj1 HF) (proj1 HF)) as (b & v & EA & Lb & Lv & V). fold nc in EA, Lb, Lv, V. fold x G in Lv, V.
  assert (RE : cmfd_reach srt K0 (match h with None => None | Some o => Some (e_loss o) end)).
  { destruct h as [o|]; [apply ST|apply cmfd_new]. }
  destruct (@action_on U C level HP HC cm cmap GC EM phi cur HF cmat fl GM T 1 0 HT srt _ HS RE) as (A & EK & AC). fold K0 in EK. fold fl' in EK. fold nc x G in AC.
  destruct (AC v Lv) as (y & Ey & Ly & Vy). { intros g c Hg Hc. apply V; auto. }
  assert (EAL : exists al, relaxation alpha h = Ok al).
  { destruct alpha as [a|]; [exists a; reflexivity|]. destruct HA as [HA| ->]; [congruence|]. exists 0%R. reflexivity. }
  destruct EAL as (al & EAL).
  assert (N1 : ng cmat = G) by apply GM.
  assert (ECC : cmfd_construct srt (eoperator U C cm cmat T al h) (match h with None => None | Some o => Some (e_loss o) end) fl' = Ok A).
  { rewrite <- EK. unfold cmfd_construct. rewrite ops_same by auto. destruct h; reflexivity. }
  assert (EG : exists M, (match h with None => build srt (gain_caps F0) (gain_ops F0) | Some o => gain_construct srt F0 (e_gain o) cmat end) = Ok M /\
    (forall w, length w = G * nc -> exists t, multiply M w = Ok t /\ length t = G * nc /\
       forall p c, p < G -> c < nc -> part nc t p c = production (u_adj U) cmat (mt cm c) (fun q => part nc w q c) p) /\
    exists caps', cleared M = preallocate caps' /\ length caps' = G * nc /\ roomy caps' (gain_ops F0)).
  { destruct h as [o|].
    - destruct ST as (_ & _ & caps & EC & LC & RO). destruct (@gain_builds F0 srt caps HS) as (M & HB & HM & HC'); [cbn; rewrite N1; exact LC|exact RO|].
      exists M. cbn [F0 f_mesh f_mat f_adj] in HM, HC'. rewrite N1 in HM, HC'. split; [|split; auto].
      unfold gain_construct. rewrite EC. change {| f_mesh := f_mesh F0; f_mat := cmat; f_adj := f_adj F0 |} with F0.
      unfold build in HB. rewrite LC in HB. cbn [F0 f_mat f_mesh]. rewrite N1. exact HB.
    - destruct (@gain_builds F0 srt (gain_caps F0) HS) as (M & HB & HM & HC'); [unfold gain_caps; apply repeat_length|apply gain_room|].
      exists M. cbn [F0 f_mesh f_mat f_adj] in HM, HC'. rewrite N1 in HM, HC'. split; auto. }
  destruct EG as (M & EB & HM & HCL).
  assert (MT : forall c, c < nc -> mt cm c = c) by (intros; apply GC; auto).
  assert (HM' : forall w, length w = G * nc -> exists t, multiply M w = Ok t /\ length t = G * nc /\
     forall g c, g < G -> c < nc -> nth (c + g * nc) t 0%R = rsum G (fun gp => birth (u_adj U) cmat g gp c * nth (c + gp * nc) w 0)%R).
  { intros w Lw. destruct (HM w Lw) as (t & Et & Lt & Vt). exists t. split; auto. split; auto. intros g c Hg Hc. specialize (Vt g c Hg Hc).
    unfold part, production in Vt. rewrite Vt, N1, MT by auto. reflexivity. }
  destruct (HM' v Lv) as (z & Ez & Lz & Vz).
  exists v, {| e_loss := A; e_hat := fun g c leak => snd (k_coef (eoperator U C cm cmat T al h) fl' g c leak); e_gain := M |}, y, z.
  split.
  { unfold ecoarse. pose proof GC as (EC & _). rewrite EC. cbn [bind]. rewrite EM. cbn [bind].
    pose proof (vols_ok HP) as VO. rewrite VO. cbn [bind].
    pose proof GM as (EH & _). unfold hom_of in EH. rewrite HU2 in EH. rewrite EH. cbn [bind fst snd].
    rewrite EAL. cbn [bind]. fold fl'. rewrite ECC. cbn [bind]. fold F0. rewrite EB. cbn [bind]. rewrite EA. reflexivity. }
  split.
  { cbn [steady e_loss e_hat e_gain]. split; [eapply (@cmfd_next srt K0 K0); [exact RE|repeat split|exact EK]|]. split; auto.
    intros. rewrite coef_same; auto. }
  split; auto. split; [intros g c Hg Hc; apply V; auto|]. cbn [e_loss e_gain]. split; auto. split; auto. split; auto. split; auto. split; auto.
  intros g I J L Hg HI HJ HL. cbv zeta.
  assert (Hc : idx I J L < nc) by (rewrite (coarse_index GC); apply cell_lt, (coarse_inside GC); auto). split.
  - rewrite Vz by auto. rewrite <- rsum_scal. apply rsum_ext. intros gp Hgp. destruct (V gp _ Hgp Hc) as (_ & ->).
    pose proof (coarse_vol_pos HP HC GC EM Hc). field. lra.
  - specialize (Vy g I J L Hg HI HJ HL). cbv zeta in Vy. rewrite HU1 in Vy. rewrite Vy. fold m. ring.
Qed.

(** The averages of a mode. *)
Variables (k : R) (X : nat -> R).
Hypothesis HD : D < 3.
Hypothesis HA : u_adj U = false \/ G = 1.
Hypothesis Hk : (0 < k)%R.
Hypothesis HM : mode U C k phi T.
Hypothesis HX : forall i, i < nm x -> fissile_in x X i \/ barren_in x i.
Hypothesis HXc : exists c, c < n /\ fissile_in x X (mt m c).
Hypothesis HXg : exists g, g < G /\ (0 < X g)%R.
Hypothesis HXn : forall g, g < G -> (0 <= X g)%R.

Lemma averages_eigen (v y z : list R) : (forall g I J L, g < G -> I < cm_n C 0 -> J < cm_n C 1 -> L < cm_n C 2 ->
    let c := idx I J L in
    (vol cm c * nth (c + g * nc) z 0 = rsum G (fun gp => birth (u_adj U) cmat g gp c * RS U cmap c (val2 phi gp)))%R /\
    (vol cm c * nth (c + g * nc) y 0 = Tally_Spec.net_leakage C (T g) I J L + RS U cmap c (fun i => st x g (mt m i) * val2 phi g i) -
       rsum G (fun gp => into (u_adj U) cmat g gp c * RS U cmap c (val2 phi gp)))%R) ->
  length v = G * nc -> length y = G * nc -> length z = G * nc -> z = map (Rmult k) y /\ nonzero y.
Proof.
  intros V Lv Ly Lz.
  assert (KEY : forall g I J L, g < G -> I < cm_n C 0 -> J < cm_n C 1 -> L < cm_n C 2 ->
    (0 < vol cm (idx I J L))%R /\ (vol cm (idx I J L) * nth (idx I J L + g * nc) y 0 = / k * RS U cmap (idx I J L) (born U phi g))%R /\
    (vol cm (idx I J L) * nth (idx I J L + g * nc) z 0 = RS U cmap (idx I J L) (born U phi g))%R).
  { intros g I J L Hg HI HJ HL. destruct (V g I J L Hg HI HJ HL) as (Vz & Vy).
    assert (Hc : idx I J L < nc) by (rewrite (coarse_index GC); apply cell_lt, (coarse_inside GC); auto).
    split; [apply (coarse_vol_pos HP HC GC EM); auto|].
    rewrite (sweep_balance HP HC HM HD EM) in Vy by auto. pose proof (transfer GC EM GM HA Hg Hc) as TR. fold x G in TR. rewrite TR in Vy.
    pose proof (produced_f HP HC HF HCU GC EM GM HX HA Hg Hc) as PR. fold x G in PR. rewrite PR in Vz. split; [|exact Vz].
    rewrite Vy, RS_plus, RS_scal. ring. }
  split.
  - apply (block_ext GC); auto; [rewrite map_length; auto|]. intros g I J L Hg HI HJ HL. destruct (KEY g I J L Hg HI HJ HL) as (P & Y & Z). fold nc.
    rewrite nth_scaled. apply Rmult_eq_reg_l with (vol cm (idx I J L)); [|lra]. rewrite Z.
    transitivity (k * (vol cm (idx I J L) * nth (idx I J L + g * nc) y 0))%R; [rewrite Y; field; lra|ring].
  - destruct HXg as (g & Hg & Pg). destruct HXc as (c & Hc & Fc).
    assert (Hcc : nth c cmap 0 < nc) by (apply (map_lt HP HC EM GC); auto).
    destruct (coarse_ijk GC Hcc) as (I & J & L & HI & HJ & HL & E).
    destruct (KEY g I J L Hg HI HJ HL) as (P & Y & _).
    exists (idx I J L + g * nc). split; [rewrite Ly, <- E; nia|]. intros Z. rewrite Z, Rmult_0_r in Y. rewrite <- E in Y.
    assert (0 < RS U cmap (nth c cmap 0%nat) (born U phi g))%R.
    { apply (@RS_some U HP cmap (nth c cmap 0) (born U phi g) c); auto.
      - apply (@born_pos U HP phi HF X g c HA Fc Pg Hg Hc).
      - intros j Hj _. apply (@born_nonneg U HP phi HF X HX g j HA HXn Hg Hj). }
    assert (0 < / k)%R by (apply Rinv_0_lt_compat; auto). nra.
Qed.
End Steady.

Section Updates.
Variables (U : problem) (C : cmesh) (level : nat).
Let m := u_mesh U.
Let D := Mesh_Model.dim m.
Let n := ncells m.
Let x := u_mat U.
Let G := ng x.
Hypothesis HP : problem_ok U.
Hypothesis HC : coarse_mesh D (grid_of U 0) level = Ok C.
Hypothesis HU1 : u_mult U = false.
Hypothesis HU2 : u_dc U = PHI_D.
Variables (phi : list (list R)) (cur : option (list (list R))) (T : nat -> tally).
Hypothesis HF : positive_flux U phi.
Hypothesis HCU : current_ok U cur.
Variable srt : list triplet -> list triplet.
Hypothesis HS : is_sort srt.
Variable k : R.
Hypothesis HD : D < 3.
Hypothesis HA : u_adj U = false \/ G = 1.
Hypothesis Hk : (0 < k)%R.
Hypothesis HM : mode U C k phi T.
Hypothesis HX : fissile U.
Variable eig : csr -> csr -> list R -> res (list R * R).
Hypothesis HE : keeps_modes eig.

Lemma one_update cm cmap cmat fl alpha h : coarse_good U C cm -> coarse_map C = Ok cmap -> good_mat U cm cmap phi cur cmat fl ->
  steady U C T cm cmat fl srt h -> alpha <> None \/ h = None ->
  exists h', eupdate srt eig U C T cur alpha h phi = Ok (k, phi, h') /\ steady U C T cm cmat fl srt (Some h').
Proof.
  intros GC EM GM ST HAL. pose proof (swept_readable HC HM) as HR.
  destruct HX as (X & X1 & X2 & X3 & X4).
  destruct (@step U C level HP HC HU1 HU2 phi cur T HF HR cm cmap cmat fl GC EM GM srt HS alpha h ST HAL)
    as (v & h' & y & z & E & ST' & Lv & Vv & Ey & Ly & Ez & Lz & _ & V).
  destruct (averages_eigen HP HC HU1 HF HCU GC EM GM HD HA Hk HM X1 X2 X3 X4 V Lv Ly Lz) as (EZ & NY).
  exists h'. split; auto.
  assert (GP : 0 < G) by apply HP.
  assert (NP : 0 < n) by (apply (n_positive HP)).
  assert (VP : forall g c, g < G -> c < ncells cm -> (0 < nth (c + g * ncells cm) v 0)%R).
  { intros g c Hg Hc. rewrite Vv by auto. apply Rdiv_lt_0_compat; [|apply (coarse_vol_pos HP HC GC EM); auto].
    apply (RS_pos HP HC GC EM); auto. intros i Hi. apply HF; auto. }
  assert (NC : 0 < ncells cm). { pose proof (map_lt HP HC EM GC NP). lia. }
  assert (NV : nonzero v). { exists (0 + 0 * ncells cm). split; [fold x G in Lv; rewrite Lv; cbn; nia|]. specialize (VP 0 0 GP NC). lra. }
  pose proof (l2norm_pos NV) as LP.
  assert (PA : (0 < 1 / l2norm v)%R) by (apply Rdiv_lt_0_compat; lra).
  destruct (HE (M := e_gain h') (L := e_loss h') (x := unit_of v) (k := k)) as (a & Pa & EE).
  { exists (map (Rmult (1 / l2norm v)) y). split; [apply multiply_scaled; auto|]. split.
    - unfold unit_of. rewrite (multiply_scaled _ Ez), EZ. f_equal. rewrite !map_map. apply map_ext. intros. ring.
    - destruct NY as (i & Hi & Ni). exists i. rewrite map_length, nth_scaled. split; auto. intros Z. apply Rmult_integral in Z. lra. }
  unfold eupdate. rewrite E. cbn [bind]. rewrite EE. cbn [bind fst snd].
  assert (NU : nonzero (unit_of v)).
  { destruct NV as (i & Hi & Ni). exists i. unfold unit_of. rewrite map_length, nth_scaled. split; auto. intros Z. apply Rmult_integral in Z. lra. }
  rewrite (unit_scaled Pa NU), (unit_unit NV).
  assert (LU : length (unit_of v) = G * ncells cm) by (unfold unit_of; rewrite map_length; auto).
  destruct (@rescale_ok U (ncells cm) cmap (u_omega U) (unit_of v) (unit_of v)) with (phi := phi) as (p' & EP & SP & VQ); auto.
  { apply (cmap_len HP HC EM). } { intros i Hi. apply (map_lt HP HC EM GC). auto. } { apply HF. }
  rewrite EP. cbn [bind]. do 2 f_equal. f_equal. apply (shape_ext SP); [apply HF|]. intros g c Hg Hc. rewrite VQ by auto.
  assert (Hcc : nth c cmap 0 < ncells cm) by (apply (map_lt HP HC EM GC); auto).
  unfold factor. cbv zeta. unfold unit_of. rewrite nth_scaled. specialize (VP g _ Hg Hcc). field. split; lra.
Qed.

Lemma many_updates cm cmap cmat fl alpha resweep q h : coarse_good U C cm -> coarse_map C = Ok cmap -> good_mat U cm cmap phi cur cmat fl ->
  resweep phi = (phi, T) -> steady U C T cm cmat fl srt h -> alpha <> None \/ (h = None /\ q <= 1) ->
  eupdates srt eig U C resweep cur alpha q h phi = Ok (repeat k q, phi).
Proof.
  intros GC EM GM RS. revert h. induction q as [|q IH]; intros h ST HAL; cbn [eupdates repeat]; auto.
  rewrite RS. cbn [fst snd].
  destruct (@one_update cm cmap cmat fl alpha h GC EM GM ST) as (h' & E & ST'); [tauto|]. rewrite E. cbn [bind].
  destruct q as [|q].
  - cbn [eupdates bind fst snd repeat]. reflexivity.
  - rewrite IH; auto. destruct HAL as [HAL|(_ & HL)]; [auto|lia].
Qed.
Theorem updates_steady alpha resweep q : resweep phi = (phi, T) -> alpha <> None \/ q <= 1 ->
  eupdates srt eig U C resweep cur alpha q None phi = Ok (repeat k q, phi).
Proof.
  intros RS HAL. destruct (coarse_exists HP HC) as (cm & GC). destruct (map_exists HP HC) as (cmap & EM & _).
  destruct (homogenised HP HC GC EM HF HCU) as (cmat & fl & GM).
  eapply many_updates; eauto; [exact I|]. tauto.
Qed.
Theorem updates_default resweep q : resweep phi = (phi, T) -> eupdates srt eig U C resweep cur None (S (S q)) None phi = UB.
Proof.
  intros RS. destruct (coarse_exists HP HC) as (cm & GC). destruct (map_exists HP HC) as (cmap & EM & _).
  destruct (homogenised HP HC GC EM HF HCU) as (cmat & fl & GM).
  destruct (@one_update cm cmap cmat fl None None GC EM GM I) as (h' & E & ST'); [tauto|].
  cbn [eupdates]. rewrite RS. cbn [fst snd]. rewrite E. cbn [bind]. rewrite RS. cbn [fst snd].
  unfold eupdate at 1, ecoarse. pose proof GC as (EC & _). rewrite EC. cbn [bind]. rewrite EM. cbn [bind].
  pose proof (vols_ok HP) as VO. rewrite VO. cbn [bind].
  pose proof GM as (EH & _). unfold hom_of in EH. rewrite HU2 in EH. rewrite EH. reflexivity.
Qed.
End Updates.
