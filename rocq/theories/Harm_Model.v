(** * Harm_Model: spherical harmonics and the moment to discrete operator.
    Modelled: src/angle/SphericalHarmonics.cc, MomentToDiscrete.{cc,i.hh}, in the
    build without Boost.
    Simplifications: double is R and every literal is the decimal number that is
    written; the Require of the ranges (off in release builds) are not checks. *)
From Coq Require Export QArith Qreals.
From Verif Require Import Base BaseR Util_Model Angle_Model.
Open Scope nat_scope.

Definition lit (q : Q) : R := Q2R q.
(** SphericalHarmonics.cc 62-147; an order outside [-l, l] falls through to 0. *)
Definition get_Y (l : nat) (m : Z) (mu eta xi : R) : res R :=
  (match l with
   | 0%nat => Ok 1
   | 1%nat => if Z.eqb m (-1) then Ok eta else if Z.eqb m 0 then Ok xi else if Z.eqb m 1 then Ok mu else Ok 0
   | 2%nat =>
     if Z.eqb m (-2) then Ok (lit 1.732050807568877 * mu * eta)
     else if Z.eqb m (-1) then Ok (lit 1.732050807568877 * xi * eta)
     else if Z.eqb m 0 then Ok (lit 1.5 * xi * xi - lit 0.5)
     else if Z.eqb m 1 then Ok (lit 1.732050807568877 * xi * mu)
     else if Z.eqb m 2 then Ok (lit 0.8660254037844385 * (mu * mu - eta * eta))
     else Ok 0
   | 3%nat =>
     if Z.eqb m (-3) then Ok (lit 0.7905694150420948 * eta * (3 * mu * mu - eta * eta))
     else if Z.eqb m (-2) then Ok (lit 3.872983346207417 * xi * mu * eta)
     else if Z.eqb m (-1) then Ok (lit 0.6123724356957945 * eta * (5 * xi * xi - 1))
     else if Z.eqb m 0 then Ok (lit 2.5 * xi * xi * xi - lit 1.5 * xi)
     else if Z.eqb m 1 then Ok (lit 0.6123724356957945 * mu * (5 * xi * xi - 1))
     else if Z.eqb m 2 then Ok (lit 1.936491673103708 * xi * (mu * mu - eta * eta))
     else if Z.eqb m 3 then Ok (lit 0.7905694150420948 * mu * (mu * mu - 3 * eta * eta))
     else Ok 0
   | _ => Err
   end)%R.
(** SphericalHarmonics.cc 26-41: from the polar cosine and the azimuth *)
Definition Y_angles (l : nat) (m : Z) (xi varphi : R) : res R :=
  let sintheta := sqrt (1 - xi * xi)%R in
  get_Y l m (sintheta * cos varphi)%R (sintheta * sin varphi)%R xi.
(** SphericalHarmonics.cc 45-52 *)
Definition Y_cosines (l : nat) (m : Z) (mu eta xi : R) : res R := get_Y l m mu eta xi.
(** SphericalHarmonics.cc 56-60 *)
Definition Y_polar (l : nat) (xi : R) : res R := get_Y l 0 0 0 xi.

(** MomentToDiscrete.i.hh 60-112: the row of angle a of octant o *)
Definition calc_row (ix : indexer) (q : quad) (o a : nat) : res (list R) :=
  match q_dim q with
  | 1 => mapM (fun l => do mu <- cosine q 0 o a; do y <- Y_polar l mu; Ok ((2 * INR l + 1) * (1 / 2) * y)%R)
           (seq 0 (mi_n ix))
  | d =>
    do mu <- cosine q 0 o a;
    do eta <- cosine q 1 o a;
    do xi <- (if d =? 2 then Ok (sqrt (1 - mu * mu - eta * eta))%R else cosine q 2 o a);
    mapM (fun i => do l <- rd (mi_l ix) i; do m <- rd (mi_m ix) i;
                   do y <- Y_cosines l m mu eta xi; Ok ((2 * INR l + 1) * (1 / (4 * PI)) * y)%R)
      (seq 0 (mi_n ix))
  end.
(** MomentToDiscrete.i.hh 24-57: the matrix, one row per angle *)
Definition m2d_build (ix : indexer) (q : quad) : res (list (list R)) :=
  foldM (fun M o => foldM (fun M a => do r <- calc_row ix q o a; wr M (Angle_Model.index q o a) r) (seq 0 (q_nao q)) M)
    (seq 0 (q_noct q)) (repeat (repeat 0%R (mi_n ix)) (q_nang q)).
(** MomentToDiscrete.i.hh 117-147: the three forms of access *)
Definition m2d_at (M : list (list R)) (angle moment : nat) : res R := rd2 M angle moment.
Definition m2d_lm (ix : indexer) (M : list (list R)) (angle l : nat) (m : Z) : res R := m2d_at M angle (mi_index ix l m).
Definition m2d_oalm (ix : indexer) (q : quad) (M : list (list R)) (o a l : nat) (m : Z) : res R :=
  m2d_lm ix M (Angle_Model.index q o a) l m.
