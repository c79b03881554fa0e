(** * Tables_Props *)
From Coquelicot Require Import Coquelicot.
From Verif Require Import Base BaseR Angle_Model Angle_Spec Angle_Proofs Tables_Model Tables_Spec Harm_Model Harm_Spec Harm_Proofs Tables_Proofs Tables_Proofs2 Tables_Proofs3 Tables_Proofs4 TablesInt_Proofs.
Local Open Scope R_scope.

(** C93 *)
Theorem C93_sets :
  forall np dim,
  dim = 2%nat \/ dim = 3%nat ->
  ((1 <= np <= 12)%nat -> exists q, level_symmetric np dim = Ok q /\ q_dim q = dim /\ well_formed q /\ q_nao q = (np * (np + 1) / 2)%nat /\
     Rabs (qsum q (fun _ _ => 1) - 4 * PI) <= / 10 ^ 16 /\
     (forall a, (a < q_nao q)%nat -> (exists b, (b < q_nao q)%nat /\ swapped_mu_eta q a b) /\
                                     (exists c, (c < q_nao q)%nat /\ swapped_mu_xi q (/ 10 ^ 22) a c))) /\
  (~ (1 <= np <= 12)%nat -> level_symmetric np dim = Err).
Proof. exact @levels_built. Qed.
Print Assumptions C93_sets.
Theorem C93_degree :
  forall np dim q,
  dim = 2%nat \/ dim = 3%nat -> level_symmetric np dim = Ok q ->
  integrates q (ls_degree np) (/ 10 ^ 16) /\ ~ integrates q (ls_degree np + 2) (/ 10 ^ 12).
Proof. exact @levels_degree. Qed.
Print Assumptions C93_degree.
Theorem C93_weights :
  forall np dim q,
  dim = 2%nat \/ dim = 3%nat -> level_symmetric np dim = Ok q ->
  ((forall a, (a < q_nao q)%nat -> 0 < wt_of q a) <-> (np <= 9)%nat).
Proof. exact @levels_sign. Qed.
Print Assumptions C93_weights.

(** Case: the set with twelve levels, whose weights are not all positive. *)
Example C93_case : exists q, level_symmetric 12 2 = Ok q /\ q_nao q = 78%nat /\ integrates q 22 (/ 10 ^ 16) /\
  ~ (forall a, (a < q_nao q)%nat -> 0 < wt_of q a).
Proof.
  destruct (levels_built 12 (or_introl eq_refl)) as [H _]. destruct H as (q & Hq & _ & _ & N & _); [lia|].
  exists q. split; auto. split; [rewrite N; reflexivity|]. split; [apply (levels_degree (or_introl eq_refl) Hq)|].
  rewrite (levels_sign (or_introl eq_refl) Hq). lia.
Qed.

(** C94 *)
Theorem C94_integrals :
  forall k,
  half_range k = RInt (fun t => sin t ^ k * sin t) 0 (PI / 2).
Proof. exact @half_integral. Qed.
Print Assumptions C94_integrals.
Theorem C94_circle :
  forall k,
  quarter k = RInt (fun t => cos t ^ k) 0 (PI / 2).
Proof. exact @quarter_integral. Qed.
Print Assumptions C94_circle.
Theorem C94_tabuchi :
  forall m,
  ((1 <= m <= 5)%nat -> exists hi wh, ty_rule (2 * m) = Ok (map Ropp (rev hi) ++ hi, rev wh ++ wh) /\ length hi = m /\
     polar_rule (2 * m) (map Ropp (rev hi) ++ hi) (rev wh ++ wh) /\ Rabs (sumR wh - 1) <= / 10 ^ 7) /\
  ((6 <= m)%nat -> ty_rule (2 * m) = Err) /\ ty_rule (2 * m + 1) = Err.
Proof. exact @tabuchi. Qed.
Print Assumptions C94_tabuchi.
Theorem C94_tri_gauss :
  forall m,
  ((1 <= m <= 6)%nat -> exists hi wh, tg_rule (2 * m) = Ok (map Ropp (rev hi) ++ hi, rev wh ++ wh) /\ length hi = m /\
     polar_rule (2 * m) (map Ropp (rev hi) ++ hi) (rev wh ++ wh) /\ Rabs (sumR wh - 1) <= / 10 ^ 14) /\
  (m = 0%nat \/ (7 <= m)%nat -> tg_rule (2 * m) = Err).
Proof. exact @tri_gauss. Qed.
Print Assumptions C94_tri_gauss.
Theorem C94_double_range :
  forall m,
  ((1 <= m <= 15)%nat -> exists hi wh, dr_rule (2 * m) = Ok (map Ropp (rev hi) ++ hi, rev wh ++ wh) /\ length hi = m /\
     polar_rule (2 * m) (map Ropp (rev hi) ++ hi) (rev wh ++ wh) /\
     forall k, (k < 2 * m)%nat -> Rabs (power_sum (map (fun x => sqrt (1 - x * x)) hi) wh k - half_range k) <= / 10 ^ 14) /\
  ((16 <= m)%nat -> dr_rule (2 * m) = Err).
Proof. exact @double_range. Qed.
Print Assumptions C94_double_range.
Theorem C94_quadruple_range :
  forall m,
  ((1 <= m <= 15)%nat -> exists phi w, qr_rule (2 * m) = Ok (phi, w) /\ azimuth_rule (2 * m) phi w (/ 10 ^ 15) /\
     forall k, (k < 2 * m)%nat -> Rabs (power_sum (map cos phi) w k - quarter k) <= / 10 ^ 14) /\
  ((16 <= m)%nat -> qr_rule (2 * m) = Err) /\ qr_rule (2 * m + 1) = Err.
Proof. exact @quadruple_range. Qed.
Print Assumptions C94_quadruple_range.

(** Case: the six-angle quadruple-range rule integrates cos^4 over the quarter
    circle, 3 pi / 16, to fourteen places. *)
Example C94_case : exists phi w, qr_rule 6 = Ok (phi, w) /\ Rabs (power_sum (map cos phi) w 4 - 3 * PI / 16) <= / 10 ^ 14.
Proof.
  destruct (quadruple_range 3) as [H _]. destruct H as (phi & w & E & _ & M); [lia|]. exists phi, w. split; auto.
  replace (3 * PI / 16) with (quarter 4) by (cbn [quarter INR]; field). apply M. lia.
Qed.
