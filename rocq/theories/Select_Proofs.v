(** * Proofs on the factories: names and options *)
From Coq Require Import String.
From Verif Require Import Base BaseR Loop Util_Model Util_Proofs Manager_Model Manager_Proofs Driver_Spec Driver_Proofs
  Angle_Model Select_Model Select_Spec.
Open Scope string_scope.
Open Scope nat_scope.
Set Implicit Arguments.
Unset Strict Implicit.

Lemma mfind_In V k (m : smap V) v : mfind k m = Some v -> In (k, v) m.
Proof.
  induction m as [|[k' v'] m IH]; simpl; [discriminate|].
  destruct (String.eqb_spec k k') as [->|]; [intros [= ->]; auto|auto].
Qed.

(** ** Options *)
Lemma get_int_inv Sub (d : db Sub) k z : get_int d k = Ok z -> has_int d k z.
Proof.
  unfold get_int, has_int. intros H. apply bind_ok in H. destruct H as (v & E & H).
  rewrite E. destruct v; congruence.
Qed.
Lemma get_dbl_inv Sub (d : db Sub) k z : get_dbl d k = Ok z -> has_dbl d k z.
Proof.
  unfold get_dbl, has_dbl. intros H. apply bind_ok in H. destruct H as (v & E & H).
  rewrite E. destruct v; congruence.
Qed.
Lemma get_str_inv Sub (d : db Sub) k z : get_str d k = Ok z -> has_str d k z.
Proof.
  unfold get_str, has_str. intros H. apply bind_ok in H. destruct H as (v & E & H).
  rewrite E. destruct v; congruence.
Qed.
Lemma get_str_has Sub (d : db Sub) k s : has_str d k s -> get_str d k = Ok s /\ check d k = true.
Proof. unfold has_str, get_str. intros H. split; [rewrite H; auto|eapply getv_check; eauto]. Qed.

Lemma int_or_says Sub (d : db Sub) k dflt z : int_or d k dflt = Ok z <-> opt_int d k dflt z.
Proof.
  unfold int_or, opt_int. destruct (check d k) eqn:E; split.
  - intros H. left. apply get_int_inv; auto.
  - intros [H|[H _]]; [apply get_int_ok; auto|discriminate].
  - intros [= ->]; auto.
  - intros [H|[_ ->]]; auto. apply getv_check in H. congruence.
Qed.
Lemma dbl_or_says Sub (d : db Sub) k dflt z : dbl_or d k dflt = Ok z <-> opt_dbl d k dflt z.
Proof.
  unfold dbl_or, opt_dbl. destruct (check d k) eqn:E; split.
  - intros H. left. apply get_dbl_inv; auto.
  - intros [H|[H _]]; [apply get_dbl_ok; auto|discriminate].
  - intros [= ->]; auto.
  - intros [H|[_ ->]]; auto. apply getv_check in H. congruence.
Qed.
Lemma str_or_opt Sub (d : db Sub) k dflt z : str_or d k dflt = Ok z <-> opt_str d k dflt z.
Proof.
  unfold str_or, opt_str. destruct (check d k) eqn:E; split.
  - intros H. left. apply get_str_inv; auto.
  - intros [H|[H _]]; [apply get_str_has; auto|discriminate].
  - intros [= ->]; auto.
  - intros [H|[_ ->]]; auto. apply getv_check in H. congruence.
Qed.

Lemma typed_int Sub (d : db Sub) ks k dflt : typed d ks TInt -> In k ks -> exists z, opt_int d k dflt z.
Proof.
  intros H I. destruct (check d k) eqn:E.
  - destruct (H k I E) as [v Hv]. pose proof Hv as Hv'. simpl in Hv. destruct (mfind k (m_int d)); [|discriminate].
    simpl in Hv. injection Hv as <-. exists z. left. exact Hv'.
  - exists dflt. right; auto.
Qed.
Lemma typed_dbl Sub (d : db Sub) ks k dflt : typed d ks TDbl -> In k ks -> exists z, opt_dbl d k dflt z.
Proof.
  intros H I. destruct (check d k) eqn:E.
  - destruct (H k I E) as [v Hv]. pose proof Hv as Hv'. simpl in Hv. destruct (mfind k (m_dbl d)); [|discriminate].
    simpl in Hv. injection Hv as <-. exists r. left. exact Hv'.
  - exists dflt. right; auto.
Qed.

(** ** Quadratures *)
Lemma dim_ok_range dim : dim_ok dim = true <-> 1 <= dim <= 3.
Proof. unfold dim_ok. rewrite andb_true_iff, !Nat.ltb_lt. lia. Qed.

Lemma polar_table_named t b f : mfind t polar_table = Some (b, f) -> polar_name b t.
Proof.
  intros E. apply mfind_In in E. simpl in E.
  repeat (destruct E as [E|E]; [injection E as <- <- <-; constructor|]). destruct E.
Qed.

Lemma quad_named Sub (d : db Sub) dim r : quad_build d dim = Ok r ->
  exists t na np, type_in_use d dim t /\ counts_in_use d na np /\ (t <> "asqr-tg" -> asks dim na np t r).
Proof.
  unfold quad_build, quad_type. intros H.
  apply bind_ok in H. destruct H as (t & Et & H).
  apply bind_ok in H. destruct H as (n & En & H).
  apply bind_ok in H. destruct H as (np & Ep & H).
  apply bind_ok in H. destruct H as (na & Ea & H).
  apply str_or_opt in Et. apply int_or_says in Ep. apply int_or_says in Ea.
  exists t, na, np. split; [auto|split; [split; auto|]]. intros Hne.
  destruct (dim_ok dim) eqn:D; [|discriminate]. apply dim_ok_range in D. simpl in H.
  destruct (String.eqb_spec t "user") as [->|Hu].
  { unfold quad_user in H. destruct (check d "quad_mu"); [|discriminate]. destruct (check d "quad_wt"); [|discriminate].
    simpl in H. apply bind_ok in H. destruct H as (mu & _ & H). apply bind_ok in H. destruct H as (eta & _ & H).
    apply bind_ok in H. destruct H as (wt & _ & H). apply bind_ok in H. destruct H as (es & _ & H).
    injection H as <-. constructor. lia. }
  unfold quad_pick in H. destruct (Nat.eqb_spec dim 1) as [->|H1].
  - destruct (mfind t polar_table) as [[b f]|] eqn:E; [|discriminate]. injection H as <-.
    constructor; auto. eapply polar_table_named; eauto.
  - assert (D2 : 2 <= dim <= 3) by lia.
    destruct (String.eqb_spec t "levelsymmetric") as [->|].
    { injection H as <-. constructor; auto. }
    destruct (String.eqb_spec t "uniformequal") as [->|].
    { injection H as <-. constructor; auto. }
    destruct (mfind t product_table) as [[a p]|] eqn:E; [|discriminate]. injection H as <-.
    apply mfind_In in E. unfold product_table in E.
    repeat (destruct E as [E|E]; [injection E as <- <- <-;
      try (exfalso; apply Hne; reflexivity);
      match goal with |- asks _ _ _ ?t (Product _ ?a ?p _ _ _) =>
        first [ apply (@ask_product dim na np a p "gl" _ false D2 ap_gl); constructor
              | apply (@ask_product dim na np a p "dgl" _ false D2 ap_dgl); constructor
              | apply (@ask_product dim na np a p "u" _ false D2 ap_u); constructor
              | apply (@ask_product dim na np a p "s" _ false D2 ap_s); constructor
              | apply (@ask_product dim na np a p "asqr" _ false D2 ap_asqr); constructor ] end|]).
    destruct E.
Qed.

(** The options the factory reads as integers. *)
Definition quad_ints : list string :=
  ["quad_chebyshev_normalize"; "quad_number_polar_octant"; "quad_number_azimuth_octant"].

Lemma quad_build_eq Sub (d : db Sub) dim t : typed d quad_ints TInt -> 1 <= dim <= 3 -> type_in_use d dim t ->
  exists na np n, counts_in_use d na np /\ opt_int d "quad_chebyshev_normalize" 0%Z n /\
    quad_build d dim = if String.eqb t "user" then quad_user d dim
    else match quad_pick dim t na np (negb (Z.eqb n 0)) with Some r => Ok r | None => Err end.
Proof.
  intros Hd D Ht.
  destruct (@typed_int _ d _ "quad_chebyshev_normalize" 0%Z Hd ltac:(simpl; tauto)) as [n Hn].
  destruct (@typed_int _ d _ "quad_number_polar_octant" 1%Z Hd ltac:(simpl; tauto)) as [np Hp].
  destruct (@typed_int _ d _ "quad_number_azimuth_octant" 1%Z Hd ltac:(simpl; tauto)) as [na Ha].
  exists na, np, n. split; [split; auto|split; [auto|]].
  unfold quad_build, quad_type. apply str_or_opt in Ht. rewrite Ht. cbn [bind].
  apply int_or_says in Hn, Hp, Ha. rewrite Hn, Hp, Ha. cbn [bind].
  rewrite (proj2 (dim_ok_range dim) D). reflexivity.
Qed.

Lemma quad_unknown Sub (d : db Sub) dim t : typed d quad_ints TInt -> 1 <= dim <= 3 -> type_in_use d dim t ->
  (forall na np r, ~ asks dim na np t r) -> quad_build d dim = Err.
Proof.
  intros Hd D Ht Hn. destruct (quad_build_eq Hd D Ht) as (na & np & n & Hc & _ & E).
  assert (Hu : t <> "user"). { intros ->. apply (Hn 0%Z 0%Z (User dim [])). constructor; auto. }
  assert (Hg : t <> "asqr-tg" \/ dim = 1).
  { destruct (Nat.eq_dec dim 1); auto. left. intros ->.
    apply (Hn 0%Z 0%Z (Product dim ASQR TG 0%Z 0%Z false)).
    apply (@ask_product dim 0%Z 0%Z ASQR TG "asqr" "tg" false); [lia|constructor|constructor]. }
  destruct (String.eqb_spec t "user"); [congruence|].
  destruct (quad_pick dim t na np (negb (n =? 0)%Z)) as [r|] eqn:P; auto. exfalso.
  destruct Hg as [Hg| ->].
  - destruct (@quad_named _ d dim r E) as (t' & na' & np' & Ht' & _ & Hask).
    assert (t' = t).
    { apply str_or_opt in Ht. apply str_or_opt in Ht'. congruence. }
    subst t'. apply (Hn _ _ _ (Hask Hg)).
  - unfold quad_pick in P. simpl Nat.eqb in P. cbv iota in P.
    destruct (mfind t polar_table) as [[b f]|] eqn:F; [|discriminate].
    apply (Hn 0%Z 0%Z (Polar b 0%Z false)). constructor; [auto|]. eapply polar_table_named; eauto.
Qed.

(** Every polar rule can be used in one dimension. *)
Lemma quad_polar Sub (d : db Sub) b t : typed d quad_ints TInt -> polar_name b t -> has_str d "quad_type" t ->
  exists na np n, counts_in_use d na np /\ opt_int d "quad_chebyshev_normalize" 0%Z n /\
    quad_build d 1 = Ok (Polar b np (match b with GC | DGC => negb (Z.eqb n 0) | _ => false end)).
Proof.
  intros Hd Hb Ht. destruct (@quad_build_eq _ d 1 t Hd ltac:(lia) (or_introl Ht)) as (na & np & n & Hc & Hn & E).
  exists na, np, n. split; [auto|split; [auto|]]. rewrite E. destruct Hb; reflexivity.
Qed.

(** The combinations the factory knows. *)
Definition combined (a p : base) : Prop :=
  (p = GL \/ p = DGL) \/ (a = Unif) \/ (p = Unif /\ a <> ASQR) \/ (p = TY /\ a <> ASQR) \/
  (a = ASQR /\ (p = ASDR \/ p = GC \/ p = DGC)).

Lemma quad_product Sub (d : db Sub) dim a p s t : typed d quad_ints TInt -> 2 <= dim <= 3 ->
  azi_part a s -> pol_part p t -> combined a p -> has_str d "quad_type" (s ++ "-" ++ t) ->
  exists na np, counts_in_use d na np /\ quad_build d dim = Ok (Product dim a p na np false).
Proof.
  intros Hd D Ha Hp Hc Ht.
  destruct (@quad_build_eq _ d dim _ Hd ltac:(lia) (or_introl Ht)) as (na & np & n & Hcnt & _ & E).
  exists na, np. split; auto. rewrite E. unfold quad_pick. replace (dim =? 1) with false by (symmetry; apply Nat.eqb_neq; lia).
  unfold combined in Hc.
  destruct Ha; destruct Hp; try reflexivity; exfalso; intuition discriminate.
Qed.

Definition sel1 (t : string) : db unit := put (empty_db unit) "quad_type" (VStr t).

Lemma asks_product_inv dim na np a p s t r : azi_part a s -> pol_part p t ->
  asks dim na np (s ++ "-" ++ t) r -> 2 <= dim -> exists n, r = Product dim a p na np n.
Proof.
  intros Ha Hp H D. remember (s ++ "-" ++ t) as u eqn:Eu.
  destruct H as [b t' n H1 _|a' p' s' t' n _ Ha' Hp'| | |].
  - lia.
  - destruct Ha, Hp, Ha'; try discriminate Eu; destruct Hp'; try discriminate Eu; eauto.
  - destruct Ha, Hp; discriminate Eu.
  - destruct Ha, Hp; discriminate Eu.
  - destruct Ha, Hp; discriminate Eu.
Qed.

Lemma quad_tg : exists (d : db unit) r, has_str d "quad_type" "asqr-tg" /\ typed d quad_ints TInt /\
  quad_build d 3 = Ok r /\ (forall na np, exists r', asks 3 na np "asqr-tg" r') /\
  (forall na np, ~ asks 3 na np "asqr-tg" r).
Proof.
  exists (sel1 "asqr-tg"), (Product 3 ASQR ASDR 1%Z 1%Z false).
  split; [reflexivity|]. split.
  { intros k Hk. simpl in Hk. repeat (destruct Hk as [<-|Hk]; [discriminate|]). destruct Hk. }
  split; [reflexivity|]. split.
  - intros na np. exists (Product 3 ASQR TG na np false).
    apply (@ask_product 3 na np ASQR TG "asqr" "tg"); [lia|constructor|constructor].
  - intros na np H. apply (@asks_product_inv 3 na np ASQR TG "asqr" "tg") in H; [|constructor|constructor|lia].
    destruct H as [n H]. discriminate.
Qed.

Lemma quad_missing : exists (d : db unit), has_str d "quad_type" "gl-gc" /\ typed d quad_ints TInt /\
  (forall na np, exists r, asks 2 na np "gl-gc" r) /\ quad_build d 2 = Err.
Proof.
  exists (sel1 "gl-gc"). split; [reflexivity|]. split.
  { intros k Hk. simpl in Hk. repeat (destruct Hk as [<-|Hk]; [discriminate|]). destruct Hk. }
  split; [|reflexivity]. intros na np. exists (Product 2 GL GC na np false).
  apply (@ask_product 2 na np GL GC "gl" "gc"); [lia|constructor|constructor].
Qed.

(** ** User quadratures *)
Lemma user_rule_ok dim mu eta wt : List.length eta = List.length mu -> List.length wt = List.length mu ->
  exists es, user_rule dim mu eta wt = Ok es /\ user_octant dim mu eta wt es.
Proof.
  intros He Hw. unfold user_rule.
  set (g := fun i => if 1 <? dim then user_entry (nth i mu 0%R) (nth i eta 0%R) (nth i wt 0%R)
                     else {| e_mu := nth i mu 0; e_eta := 0; e_xi := 0; e_wt := nth i wt 0 |}%R).
  exists (map g (seq 0 (List.length mu))). split.
  - apply mapM_ok. intros i Hi. apply in_seq in Hi.
    rewrite (@rd_ok _ mu i 0%R), (@rd_ok _ eta i 0%R), (@rd_ok _ wt i 0%R) by lia. reflexivity.
  - split; [rewrite map_length, seq_length; auto|].
    intros i Hi. rewrite nth_map_seq by lia. simpl. unfold g.
    destruct (Nat.ltb_spec 1 dim); simpl; repeat split; auto; lia.
Qed.

Lemma quad_user_ok Sub (d : db Sub) dim mu eta wt : typed d quad_ints TInt -> 1 <= dim <= 3 ->
  has_str d "quad_type" "user" -> has_vd d "quad_mu" mu -> has_vd d "quad_eta" eta -> has_vd d "quad_wt" wt ->
  List.length eta = List.length mu -> List.length wt = List.length mu ->
  exists es, quad_build d dim = Ok (User dim es) /\ user_octant dim mu eta wt es.
Proof.
  intros Hd D Ht Hm He Hw Le Lw.
  destruct (@quad_build_eq _ d dim _ Hd D (or_introl Ht)) as (na & np & n & _ & _ & E). rewrite E. simpl String.eqb. cbv iota.
  destruct (user_rule_ok dim Le Lw) as (es & E1 & H1). exists es. split; auto.
  unfold quad_user. apply get_vd_ok in Hm, He, Hw. destruct Hm as [Hm Cm], He as [He Ce], Hw as [Hw Cw].
  rewrite Cm, Cw, Ce, Hm, He, Hw. cbn [negb bind]. rewrite E1. reflexivity.
Qed.

Definition user_slab : db unit :=
  put (put (sel1 "user") "quad_mu" (VVecDbl [1 / 2]%R)) "quad_wt" (VVecDbl [1%R]).
Lemma quad_user_slab : exists (d : db unit) mu wt, has_str d "quad_type" "user" /\ typed d quad_ints TInt /\
  has_vd d "quad_mu" mu /\ has_vd d "quad_wt" wt /\ List.length wt = List.length mu /\ 0 < List.length mu /\
  quad_build d 1 = UB.
Proof.
  exists user_slab, [1 / 2]%R, [1%R]. repeat split; auto.
  intros k Hk. simpl in Hk. repeat (destruct Hk as [<-|Hk]; [discriminate|]). destruct Hk.
Qed.

(** ** Base rules *)
Lemma base_named b t : build_base t = Ok b <->
  ((b = Simpson /\ t = "simpson") \/ (polar_name b t /\ b <> ASDR /\ b <> TG)).
Proof.
  unfold build_base. split.
  - destruct (mfind t base_table) as [c|] eqn:E; [|discriminate]. intros [= ->]. apply mfind_In in E. simpl in E.
    repeat (destruct E as [E|E]; [injection E as <- <-; (left; split; reflexivity) || (right; split; [constructor|split; discriminate])|]).
    destruct E.
  - intros [[-> ->]|[H [H1 H2]]]; [reflexivity|]. destruct H; try reflexivity; congruence.
Qed.

(** ** Linear solvers *)
Lemma linear_named Sub (d : db Sub) s : linear_create (Some d) = Ok s -> linear_asked d s.
Proof.
  unfold linear_create, linear_opts. intros H.
  apply bind_ok in H. destruct H as (o & Ho & H).
  apply bind_ok in Ho. destruct Ho as (t & Et & Ho). apply bind_ok in Ho. destruct Ho as (atol & Ea & Ho).
  apply bind_ok in Ho. destruct Ho as (rtol & Er & Ho). apply bind_ok in Ho. destruct Ho as (maxit & Em & Ho).
  apply bind_ok in Ho. destruct Ho as (level & El & Ho). apply bind_ok in Ho. destruct Ho as (dv & Ed & Ho).
  apply bind_ok in Ho. destruct Ho as (om1 & E1 & Ho). apply bind_ok in Ho. destruct Ho as (om2 & E2 & Ho).
  apply bind_ok in Ho. destruct Ho as (rs & Ers & Ho). injection Ho as <-. cbn zeta in H.
  apply bind_ok in H. destruct H as (k & Hk & H). injection H as <-.
  apply str_or_opt in Et. apply dbl_or_says in Ea, Er. apply int_or_says in Em, El, Ed.
  exists t. split; [auto|]. split.
  - simpl. destruct (String.eqb_spec t "richardson") as [->|].
    { injection Hk as <-. simpl in E1, E2. apply dbl_or_says in E1. injection E2 as <-. constructor; auto. }
    injection E1 as <-.
    destruct (String.eqb_spec t "jacobi") as [->|]. { injection Hk as <-. constructor. }
    destruct (String.eqb_spec t "gauss-seidel") as [->|]. { injection Hk as <-. constructor. }
    destruct (String.eqb_spec t "sor") as [->|].
    { injection Hk as <-. apply dbl_or_says in E2. constructor; auto. }
    destruct (String.eqb_spec t "gmres") as [->|]; [|discriminate].
    apply int_or_says in Ers. destruct (Z.ltb_spec 2 rs); [|discriminate]. injection Hk as <-. constructor; auto.
  - simpl. repeat (split; [auto|]). exists dv. split; auto.
    destruct (Z.eqb_spec dv 0); simpl; split; congruence.
Qed.

Definition linear_dbls := ["linear_solver_atol"; "linear_solver_rtol"; "linear_solver_richardson_omega"; "linear_solver_sor_omega"].
Definition linear_ints := ["linear_solver_maxit"; "linear_solver_monitor_level"; "linear_solver_monitor_diverge"; "linear_solver_gmres_restart"].

Lemma linear_total Sub (d : db Sub) t : typed d linear_dbls TDbl -> typed d linear_ints TInt ->
  opt_str d "linear_solver_type" "gmres" t ->
  (exists s, linear_create (Some d) = Ok s) \/
  (linear_create (Some d) = Err /\ forall k, ~ lname d t k).
Proof.
  intros Hd Hi Ht.
  destruct (@typed_dbl _ d _ "linear_solver_atol" 1e-8%R Hd ltac:(simpl; tauto)) as [atol Ea].
  destruct (@typed_dbl _ d _ "linear_solver_rtol" 1e-8%R Hd ltac:(simpl; tauto)) as [rtol Er].
  destruct (@typed_dbl _ d _ "linear_solver_richardson_omega" 1%R Hd ltac:(simpl; tauto)) as [w1 E1].
  destruct (@typed_dbl _ d _ "linear_solver_sor_omega" 1%R Hd ltac:(simpl; tauto)) as [w2 E2].
  destruct (@typed_int _ d _ "linear_solver_maxit" 100%Z Hi ltac:(simpl; tauto)) as [mx Em].
  destruct (@typed_int _ d _ "linear_solver_monitor_level" 0%Z Hi ltac:(simpl; tauto)) as [lv El].
  destruct (@typed_int _ d _ "linear_solver_monitor_diverge" 0%Z Hi ltac:(simpl; tauto)) as [dv Ed].
  destruct (@typed_int _ d _ "linear_solver_gmres_restart" 30%Z Hi ltac:(simpl; tauto)) as [rs Ers].
  apply str_or_opt in Ht. apply dbl_or_says in Ea, Er, E1, E2. apply int_or_says in Em, El, Ed. pose proof Ers as Ers'. apply int_or_says in Ers.
  unfold linear_create, linear_opts. rewrite Ht. cbn [bind]. rewrite Ea. cbn [bind]. rewrite Er. cbn [bind].
  rewrite Em. cbn [bind]. rewrite El. cbn [bind]. rewrite Ed. cbn [bind].
  destruct (String.eqb_spec t "richardson") as [->|]; [simpl; rewrite E1; left; simpl; eauto|]. cbn [bind].
  destruct (String.eqb_spec t "sor") as [->|]; [simpl; rewrite E2; left; simpl; eauto|]. cbn [bind].
  destruct (String.eqb_spec t "gmres") as [->|].
  { rewrite Ers. cbn [bind]. simpl. destruct (Z.ltb_spec 2 rs); [left; simpl; eauto|].
    right. split; [reflexivity|]. intros k Hk. inversion Hk; subst.
    match goal with H : opt_int d "linear_solver_gmres_restart" _ ?n |- _ => apply int_or_says in H; rewrite Ers in H; injection H as <-; lia end. }
  cbn [bind]. destruct (String.eqb_spec t "jacobi") as [->|]; [left; simpl; eauto|].
  destruct (String.eqb_spec t "gauss-seidel") as [->|]; [left; simpl; eauto|].
  right. split; [repeat match goal with H : t <> ?x |- context [String.eqb t ?x] => rewrite (proj2 (String.eqb_neq t x) H) end; reflexivity|]. intros k Hk. inversion Hk; subst; congruence.
Qed.

Lemma linear_none Sub : linear_create (@None (db Sub)) =
  Ok {| l_kind := GMRES 30; l_atol := 1e-8; l_rtol := 1e-8; l_maxit := 100; l_level := 0; l_diverge := false |}.
Proof. reflexivity. Qed.

Definition int_tolerance : db unit := put (empty_db unit) "linear_solver_rtol" (VInt 0%Z).
Lemma linear_wrong : exists d : db unit, check d "linear_solver_rtol" = true /\ linear_create (Some d) = UB.
Proof. exists int_tolerance. split; reflexivity. Qed.

(** ** Eigensolvers *)
Lemma eigen_named Sub (d : db Sub) s : eigen_create (Some d) = Ok s -> eigen_asked d s.
Proof.
  unfold eigen_create. intros H.
  apply bind_ok in H. destruct H as (t & Et & H). apply bind_ok in H. destruct H as (tol & Ea & H).
  apply bind_ok in H. destruct H as (mx & Em & H). apply bind_ok in H. destruct H as (lv & El & H).
  apply bind_ok in H. destruct H as (nv & _ & H). apply bind_ok in H. destruct H as (k & Hk & H). injection H as <-.
  apply str_or_opt in Et. apply dbl_or_says in Ea. apply int_or_says in Em, El.
  exists t. simpl. split; [auto|]. split; [|auto].
  destruct (String.eqb_spec t "power") as [->|]; [injection Hk as <-; constructor|].
  destruct (String.eqb_spec t "slepc"); [discriminate|].
  destruct (String.eqb_spec t "gd") as [->|].
  { apply bind_ok in Hk. destruct Hk as (nn & Hn & Hk). injection Hk as <-. apply int_or_says in Hn. constructor; auto. }
  destruct (String.eqb_spec t "eispack") as [->|]; [|discriminate].
  apply bind_ok in Hk. destruct Hk as (nn & _ & Hk). injection Hk as <-. constructor.
Qed.

Definition eigen_ints := ["eigen_solver_maxit"; "eigen_solver_monitor_level"; "eigen_number_values"; "eigen_solver_subspace_size"].
Lemma eigen_total Sub (d : db Sub) t : typed d ["eigen_solver_tol"] TDbl -> typed d eigen_ints TInt ->
  opt_str d "eigen_solver_type" "power" t ->
  (exists s, eigen_create (Some d) = Ok s) \/ (eigen_create (Some d) = Err /\ forall k, ~ ename d t k).
Proof.
  intros Hd Hi Ht.
  destruct (@typed_dbl _ d _ "eigen_solver_tol" 1e-5%R Hd ltac:(simpl; tauto)) as [tol Ea].
  destruct (@typed_int _ d _ "eigen_solver_maxit" 100%Z Hi ltac:(simpl; tauto)) as [mx Em].
  destruct (@typed_int _ d _ "eigen_solver_monitor_level" 0%Z Hi ltac:(simpl; tauto)) as [lv El].
  destruct (@typed_int _ d _ "eigen_number_values" 1%Z Hi ltac:(simpl; tauto)) as [nv En].
  destruct (@typed_int _ d _ "eigen_solver_subspace_size" 20%Z Hi ltac:(simpl; tauto)) as [sz Es].
  apply str_or_opt in Ht. apply dbl_or_says in Ea. apply int_or_says in Em, El, En, Es.
  unfold eigen_create. rewrite Ht. cbn [bind]. rewrite Ea. cbn [bind]. rewrite Em. cbn [bind]. rewrite El. cbn [bind].
  rewrite En. cbn [bind].
  destruct (String.eqb_spec t "power") as [->|]; [left; simpl; eauto|].
  destruct (String.eqb_spec t "slepc") as [->|]; [right; split; [reflexivity|intros k Hk; inversion Hk]|].
  destruct (String.eqb_spec t "gd") as [->|]; [rewrite Es; left; simpl; eauto|].
  destruct (String.eqb_spec t "eispack") as [->|]; [rewrite Es; left; simpl; eauto|].
  right. split; [reflexivity|]. intros k Hk. inversion Hk; subst; congruence.
Qed.
