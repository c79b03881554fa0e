(** * Harm_Props *)
From Verif Require Import Base BaseR Angle_Model Angle_Spec Angle_Proofs Tables_Model Tables_Spec Harm_Model Harm_Spec Harm_Proofs Tables_Proofs Tables_Proofs2.
Local Open Scope R_scope.

(** C92 *)
Theorem C92_harmonics :
  forall l m,
  (l <= 3)%nat -> (- Z.of_nat l <= m <= Z.of_nat l)%Z ->
  (forall mu eta xi, exists v, Y_cosines l m mu eta xi = Ok v /\ Y_cosines l m (- mu) (- eta) (- xi) = Ok ((-1) ^ l * v)) /\
  (forall xi phi, Y_angles l m xi phi = Y_cosines l m (sqrt (1 - xi * xi) * cos phi) (sqrt (1 - xi * xi) * sin phi) xi).
Proof. exact @harmonics. Qed.
Print Assumptions C92_harmonics.
Theorem C92_legendre :
  forall l x,
  (l <= 3)%nat -> Y_polar l x = Ok (legendre l x) /\ forall y z, Y_cosines l 0 y z x = Ok (legendre l x).
Proof. exact @harm_polar. Qed.
Print Assumptions C92_legendre.
Theorem C92_azimuth :
  forall l m,
  (l <= 3)%nat -> (0 <= m <= Z.of_nat l)%Z -> exists c c' : R -> R,
  forall xi phi, -1 <= xi <= 1 ->
  Y_angles l m xi phi = Ok (c xi * cos (IZR m * phi)) /\
  (m <> 0%Z -> Y_angles l (- m) xi phi = Ok (c' xi * sin (IZR m * phi))) /\
  Rabs (c xi - c' xi) <= / 10 ^ 14.
Proof. exact @harm_azimuth. Qed.
Print Assumptions C92_azimuth.
Theorem C92_addition :
  forall l mu eta xi mu' eta' xi',
  (l <= 3)%nat -> on_sphere mu eta xi -> on_sphere mu' eta' xi' ->
  Rabs (over_m l (fun m => num (Y_cosines l m mu eta xi) * num (Y_cosines l m mu' eta' xi')) -
        legendre l (mu * mu' + eta * eta' + xi * xi')) <= / 10 ^ 13.
Proof. exact @addition. Qed.
Print Assumptions C92_addition.
Theorem C92_unsupported :
  forall l m x y z,
  (3 < l)%nat -> Y_cosines l m x y z = Err.
Proof. exact @harm_high. Qed.
Print Assumptions C92_unsupported.
Theorem C92_matrix :
  forall q L ix,
  well_formed q -> (L <= 3)%nat -> indexer_new (q_dim q) L = Ok ix ->
  exists M, m2d_build ix q = Ok M /\ length M = q_nang q /\
  forall o a l m, (o < q_noct q)%nat -> (a < q_nao q)%nat -> valid_lm (q_dim q) L l m -> exists y,
  Y_cosines l m (mu_of q o a) (eta_of q o a) (xi_of q o a) = Ok y /\ m2d_oalm ix q M o a l m = Ok ((2 * INR l + 1) / (4 * PI) * y).
Proof. exact @matrix. Qed.
Print Assumptions C92_matrix.
Theorem C92_kernel :
  forall q L ix M,
  well_formed q -> q_dim q = 3%nat -> (L <= 3)%nat -> indexer_new 3 L = Ok ix -> m2d_build ix q = Ok M ->
  forall o a x y z, (o < q_noct q)%nat -> (a < q_nao q)%nat -> on_sphere x y z ->
  Rabs (rsum (S L) (fun l => over_m l (fun m => num (m2d_oalm ix q M o a l m) * num (Y_cosines l m x y z))) -
        rsum (S L) (fun l => (2 * INR l + 1) / (4 * PI) * legendre l (mu_of q o a * x + eta_of q o a * y + xi_of q o a * z)))
  <= 2 * / 10 ^ 13.
Proof. exact @kernel. Qed.
Print Assumptions C92_kernel.
Theorem C92_orthogonal :
  forall q L ix M D eps,
  well_formed q -> (L <= 3)%nat -> indexer_new (q_dim q) L = Ok ix -> m2d_build ix q = Ok M ->
  integrates q D eps ->
  forall l m l' m', valid_lm (q_dim q) L l m -> valid_lm (q_dim q) L l' m' -> (l + l' <= D)%nat ->
  Rabs (qsum q (fun o a => num (Y_cosines l m (mu_of q o a) (eta_of q o a) (xi_of q o a)) * num (m2d_oalm ix q M o a l' m')) -
        (if ((l =? l')%nat && (m =? m')%Z)%bool then 1 else 0)) <= / 10 ^ 14 + 10 * eps.
Proof. exact @m2d_orthogonal. Qed.
Print Assumptions C92_orthogonal.
Theorem C92_levels :
  forall np dim q L ix M,
  dim = 2%nat \/ dim = 3%nat -> level_symmetric np dim = Ok q -> (L <= 3)%nat ->
  indexer_new dim L = Ok ix -> m2d_build ix q = Ok M ->
  forall l m l' m', valid_lm dim L l m -> valid_lm dim L l' m' -> (l + l' <= 2 * np)%nat ->
  Rabs (qsum q (fun o a => num (Y_cosines l m (mu_of q o a) (eta_of q o a) (xi_of q o a)) * num (m2d_oalm ix q M o a l' m')) -
        (if ((l =? l')%nat && (m =? m')%Z)%bool then 1 else 0)) <= 2 * / 10 ^ 14.
Proof. exact @levels_orthogonal. Qed.
Print Assumptions C92_levels.
Theorem C92_slab_matrix :
  forall q L ix,
  well_formed1 q -> (L <= 3)%nat -> indexer_new 1 L = Ok ix ->
  exists M, m2d_build ix q = Ok M /\ length M = q_nang q /\
  forall o a l, (o < 2)%nat -> (a < q_nao q)%nat -> (l <= L)%nat ->
  m2d_oalm ix q M o a l 0 = Ok ((2 * INR l + 1) / 2 * legendre l (mu_of q o a)).
Proof. exact @m2d1_ok. Qed.
Print Assumptions C92_slab_matrix.
Theorem C92_slab_orthogonal :
  forall q L ix M eps,
  well_formed1 q -> (L <= 3)%nat -> indexer_new 1 L = Ok ix -> m2d_build ix q = Ok M ->
  integrates1 q (2 * L) eps ->
  forall l l', (l <= L)%nat -> (l' <= L)%nat ->
  Rabs (qsum q (fun o a => num (Y_polar l (mu_of q o a)) * num (m2d_oalm ix q M o a l' 0)) - (if (l =? l')%nat then 1 else 0))
    <= 60 * eps.
Proof. exact @m2d1_orthogonal. Qed.
Print Assumptions C92_slab_orthogonal.

(** Cases: the first three orders on the set with three levels; the slab on the
    two-point Gauss rule. *)
Example C92_case : exists q ix M, level_symmetric 3 3 = Ok q /\ well_formed q /\ indexer_new 3 3 = Ok ix /\ m2d_build ix q = Ok M /\
  integrates q 6 (/ 10 ^ 16) /\ valid_lm 3 3 3 (-2).
Proof.
  destruct (levels_built 3 (or_intror eq_refl)) as [H _]. destruct H as (q & Hq & D & W & _); [lia|].
  destruct (@moment_index 3 3) as (ix & Hi & _); [lia|].
  destruct (@m2d_ok q 3 ix W) as (M & HM & _); [lia|rewrite D; auto|].
  exists q, ix, M. split; [auto|]. split; [auto|]. split; [auto|]. split; [auto|].
  split; [apply (levels_degree (or_intror eq_refl) Hq)|]. repeat split; cbn; lia.
Qed.
Example C92_slab_case : well_formed1 slab2 /\ integrates1 slab2 2 0.
Proof. exact slab2_ok. Qed.
