(** * C121, C122: the objects built are the ones named in the input *)
From Coq Require Import String.
From Verif Require Import Base BaseR Util_Model Manager_Model Driver_Spec Angle_Model
  Select_Model Select_Spec Select_Proofs Select_Proofs2.
Open Scope string_scope.
Open Scope nat_scope.

(** C121.  Full statement: the quadrature built is the one named, with the
    numbers of angles asked for; false for "asqr-tg". *)
Theorem C121_named_partial : forall Sub (d : db Sub) dim r, quad_build d dim = Ok r ->
  exists t na np, type_in_use d dim t /\ counts_in_use d na np /\ (t <> "asqr-tg" -> asks dim na np t r).
Proof. exact @quad_named. Qed.
Print Assumptions C121_named_partial.
Example C121_named_ex : exists r, quad_build (put (sel1 "s-ty") "quad_number_polar_octant" (VInt 3%Z)) 2 = Ok r /\
  r = Product 2 Simpson TY 1 3 false.
Proof. eexists. split; reflexivity. Qed.

Theorem C121_tg_refuted : exists (d : db unit) r, has_str d "quad_type" "asqr-tg" /\ typed d quad_ints TInt /\
  quad_build d 3 = Ok r /\ (forall na np, exists r', asks 3 na np "asqr-tg" r') /\
  (forall na np, ~ asks 3 na np "asqr-tg" r).
Proof. exact quad_tg. Qed.
Print Assumptions C121_tg_refuted.

Theorem C121_unknown : forall Sub (d : db Sub) dim t, typed d quad_ints TInt -> 1 <= dim <= 3 ->
  type_in_use d dim t -> (forall na np r, ~ asks dim na np t r) -> quad_build d dim = Err.
Proof. exact @quad_unknown. Qed.
Print Assumptions C121_unknown.
Example C121_unknown_ex : quad_build (sel1 "gl-gl") 1 = Err /\ quad_build (sel1 "gl") 2 = Err.
Proof. split; reflexivity. Qed.

Theorem C121_polar : forall Sub (d : db Sub) b t, typed d quad_ints TInt -> polar_name b t -> has_str d "quad_type" t ->
  exists na np n, counts_in_use d na np /\ opt_int d "quad_chebyshev_normalize" 0%Z n /\
    quad_build d 1 = Ok (Polar b np (match b with GC | DGC => negb (Z.eqb n 0) | _ => false end)).
Proof. exact @quad_polar. Qed.
Print Assumptions C121_polar.

(** Full statement: every azimuthal rule combines with every polar rule. *)
Theorem C121_product_partial : forall Sub (d : db Sub) dim a p s t, typed d quad_ints TInt -> 2 <= dim <= 3 ->
  azi_part a s -> pol_part p t -> combined a p -> has_str d "quad_type" (s ++ "-" ++ t) ->
  exists na np, counts_in_use d na np /\ quad_build d dim = Ok (Product dim a p na np false).
Proof. exact @quad_product. Qed.
Print Assumptions C121_product_partial.
Theorem C121_product_refuted : exists (d : db unit), has_str d "quad_type" "gl-gc" /\ typed d quad_ints TInt /\
  (forall na np, exists r, asks 2 na np "gl-gc" r) /\ quad_build d 2 = Err.
Proof. exact quad_missing. Qed.
Print Assumptions C121_product_refuted.

(** Normalisation of Chebyshev weights: in one dimension the weights of both
    half spaces sum to two, for any number of angles. *)
Theorem C121_normalized : forall b np, (b = GC \/ b = DGC) -> 0 < np ->
  exists w, polar_weights b np true = Some w /\ List.length w = np /\ (2 * sumR w = 2)%R.
Proof. exact slab_normal. Qed.
Print Assumptions C121_normalized.
Theorem C121_normalize_refuted : exists (d : db unit) na np norm es,
  has_str d "quad_type" "u-dgc" /\ has_int d "quad_chebyshev_normalize" 1%Z /\ typed d quad_ints TInt /\
  quad_build d 3 = Ok (Product 3 Unif DGC (Z.of_nat na) (Z.of_nat np) norm) /\
  product_entries 3 Unif DGC na np norm = Some (Ok es) /\ sphere_weight 3 es <> (4 * PI)%R /\
  exists es', product_entries 3 Unif DGC na np true = Some (Ok es') /\ sphere_weight 3 es' = (4 * PI)%R.
Proof. exact product_not_normal. Qed.
Print Assumptions C121_normalize_refuted.

(** User quadratures: the directions and weights given are used; without
    quad_eta, which one dimension does not need, the behaviour is undefined. *)
Theorem C121_user_partial : forall Sub (d : db Sub) dim mu eta wt, typed d quad_ints TInt -> 1 <= dim <= 3 ->
  has_str d "quad_type" "user" -> has_vd d "quad_mu" mu -> has_vd d "quad_eta" eta -> has_vd d "quad_wt" wt ->
  List.length eta = List.length mu -> List.length wt = List.length mu ->
  exists es, quad_build d dim = Ok (User dim es) /\ user_octant dim mu eta wt es.
Proof. exact @quad_user_ok. Qed.
Print Assumptions C121_user_partial.
Example C121_user_ex : exists es,
  quad_build (put user_slab "quad_eta" (VVecDbl [0%R])) 1 = Ok (User 1 es) /\ user_octant 1 [1 / 2]%R [0%R] [1%R] es.
Proof.
  apply C121_user_partial; try reflexivity; [|lia].
  intros k Hk. simpl in Hk. repeat (destruct Hk as [<-|Hk]; [discriminate|]). destruct Hk.
Qed.
Theorem C121_user_refuted : exists (d : db unit) mu wt, has_str d "quad_type" "user" /\ typed d quad_ints TInt /\
  has_vd d "quad_mu" mu /\ has_vd d "quad_wt" wt /\ List.length wt = List.length mu /\ 0 < List.length mu /\
  quad_build d 1 = UB.
Proof. exact quad_user_slab. Qed.
Print Assumptions C121_user_refuted.

Theorem C121_base : forall b t, build_base t = Ok b <->
  ((b = Simpson /\ t = "simpson") \/ (polar_name b t /\ b <> ASDR /\ b <> TG)).
Proof. exact base_named. Qed.
Print Assumptions C121_base.

(** C122: solvers *)
Theorem C122_linear : forall Sub (d : db Sub) s, linear_create (Some d) = Ok s -> linear_asked d s.
Proof. exact @linear_named. Qed.
Print Assumptions C122_linear.
Example C122_linear_ex : exists s,
  linear_create (Some (put (put (empty_db unit) "linear_solver_type" (VStr "sor")) "linear_solver_sor_omega" (VDbl (3 / 2)%R))) = Ok s
  /\ l_kind s = GaussSeidel (3 / 2)%R /\ l_maxit s = 100%Z.
Proof. eexists. repeat split. Qed.

Theorem C122_linear_total_partial : forall Sub (d : db Sub) t, typed d linear_dbls TDbl -> typed d linear_ints TInt ->
  opt_str d "linear_solver_type" "gmres" t ->
  (exists s, linear_create (Some d) = Ok s) \/ (linear_create (Some d) = Err /\ forall k, ~ lname d t k).
Proof. exact @linear_total. Qed.
Print Assumptions C122_linear_total_partial.

Theorem C122_default : forall Sub, linear_create (@None (db Sub)) =
  Ok {| l_kind := GMRES 30; l_atol := 1e-8; l_rtol := 1e-8; l_maxit := 100; l_level := 0; l_diverge := false |}.
Proof. exact linear_none. Qed.
Print Assumptions C122_default.

Theorem C122_type_refuted : exists d : db unit, check d "linear_solver_rtol" = true /\ linear_create (Some d) = UB.
Proof. exact linear_wrong. Qed.
Print Assumptions C122_type_refuted.

Theorem C122_eigen : forall Sub (d : db Sub) s, eigen_create (Some d) = Ok s -> eigen_asked d s.
Proof. exact @eigen_named. Qed.
Print Assumptions C122_eigen.
Example C122_eigen_ex : exists s,
  eigen_create (Some (put (empty_db unit) "eigen_solver_type" (VStr "gd"))) = Ok s /\ e_kind s = Gd 20.
Proof. eexists. repeat split. Qed.
Theorem C122_eigen_total_partial : forall Sub (d : db Sub) t, typed d ["eigen_solver_tol"] TDbl -> typed d eigen_ints TInt ->
  opt_str d "eigen_solver_type" "power" t ->
  (exists s, eigen_create (Some d) = Ok s) \/ (eigen_create (Some d) = Err /\ forall k, ~ ename d t k).
Proof. exact @eigen_total. Qed.
Print Assumptions C122_eigen_total_partial.
