(** * Model of the LRA benchmark material
    Source: /repo/src/solvers/time/LRA.{hh,cc} and TimeStepper.cc 403-437.
    Simplifications: double is R; the two energy groups are fields; the data of
    a cell are the values its setters store (update_impl starts from
    initialize_materials, so nothing older survives); beta, lambda and the
    velocities are constants and not repeated here; a map value outside the
    tables is undefined behaviour; printing is dropped. *)
From Verif Require Import Base BaseR Loop Kinetics_Model.
Open Scope R_scope.

(** LRA.hh 22-48 *)
Definition T1 := [0.265604249667995; 0.262881177707676; 0.264760391845380; 0.264760391845380; 0.265181649429859; 0.264760391845380].
Definition T2 := [1.579778830963665; 1.752541184717841; 1.594133588394707; 1.594133588394707; 2.093802345058626; 1.594133588394707].
Definition A1 := [0.008252; 0.007181; 0.008002; 0.008002; 0.0006024; 0.008002].
Definition A2 := [0.1003; 0.07047; 0.08344; 0.073324; 0.01911; 0.08344].
Definition F1 := [0.001893827160494; 0.001896707818930; 0.001918930041152; 0.001918930041152; 0; 0.001918930041152].
Definition F2 := [0.044897119341564; 0.035699588477366; 0.042016460905350; 0.042016460905350; 0; 0.042016460905350].
Definition S11 := [0.232022249667995; 0.228030177707676; 0.230588391845380; 0.230588391845380; 0.21703924942985; 0.230588391845380].
Definition S21 := [0.02533; 0.02767; 0.02617; 0.02617; 0.04754; 0.02617].
Definition S22 := [1.479478830963665; 1.682071184717841; 1.510693588394707; 1.520809588394707; 2.074692345058626; 1.510693588394707].
Definition D1 := [1.255; 1.268; 1.259; 1.259; 1.257; 1.259].
Definition D2 := [0.211; 0.1902; 0.2091; 0.2091; 0.1592; 0.2091].
Definition mu0 := [0; 0; 0; 0; 0; 0].
Definition mu1 := [0; 0; 0; 0; 0; 0].
Definition NU := 2.43.
Definition B := 0.0001.
Definition ALPHA := 3.830e-11.
Definition GAMMA := 3.034e-3.
Definition KAPPA := 3.204e-11.
Definition ROD := 5%nat.
Definition REFLECTOR := 4%nat.

(** Totals, absorption, scattering (from group 1 into 1, from 1 into 2, from 2
    into 2), fission, spectrum, diffusion coefficients of a cell. *)
Record xs := { t1 : R; t2 : R; a1 : R; a2 : R; s11 : R; s21 : R; s22 : R; f1 : R; f2 : R;
               nu : R; chi1 : R; chi2 : R; d1 : R; d2 : R }.

(** LRA.cc 62-95: one cell; scattering that is not set stays zero. *)
Definition init_cell (transport : bool) (m : nat) : res xs :=
  do vt1 <- rd T1 m; do vt2 <- rd T2 m; do va1 <- rd A1 m; do va2 <- rd A2 m;
  do vf1 <- rd F1 m; do vf2 <- rd F2 m; do v11 <- rd S11 m; do v21 <- rd S21 m; do v22 <- rd S22 m;
  do vd1 <- rd D1 m; do vd2 <- rd D2 m; do m0 <- rd mu0 m; do m1 <- rd mu1 m;
  Ok {| t1 := if transport then vt1 + B * vd1 else va1 + v21 + B * vd1;
        t2 := if transport then vt2 + B * vd2 else va2 + B * vd2;
        a1 := va1 + B * vd1; a2 := va2 + B * vd2;
        s11 := if transport then v11 / (1 + m0) else 0; s21 := v21;
        s22 := if transport then v22 / (1 + m1) else 0;
        f1 := vf1; f2 := vf2; nu := NU; chi1 := 1; chi2 := 0; d1 := vd1; d2 := vd2 |}.

(** LRA.cc 123-127: the rod's thermal absorption at time t. *)
Definition rod_absorption (va2 t : R) : R :=
  if Rle_dec t 2 then va2 * (1 - 0.0606184 * t) else 0.878763 * va2.

(** LRA.cc 115-178: update_impl for one cell at time t and temperature T. *)
Definition update_cell (transport steady : bool) (t : R) (m : nat) (T : R) : res xs :=
  do x <- init_cell transport m;
  if steady then Ok x
  else
    do rod <- rd A2 ROD;
    do vt1 <- rd T1 m; do vt2 <- rd T2 m; do va1 <- rd A1 m; do va2 <- rd A2 m;
    do v21 <- rd S21 m; do vd1 <- rd D1 m; do vd2 <- rd D2 m; do vf1 <- rd F1 m; do vf2 <- rd F2 m;
    let sigma_a2 := rod_absorption rod t in
    let delta_2 := sigma_a2 - rod in
    let sa := if (m =? ROD)%nat then sigma_a2 else va2 in
    let del := if (m =? ROD)%nat then delta_2 else 0 in
    let sigma_a1 := if (m =? REFLECTOR)%nat then va1 else va1 * (1 + GAMMA * (sqrt T - sqrt 300)) in
    let delta_1 := sigma_a1 - va1 in
    Ok {| t1 := if transport then vt1 + B * vd1 + delta_1 else sigma_a1 + B * vd1 + v21;
          t2 := if transport then vt2 + B * vd2 + del else sa + B * vd2;
          a1 := sigma_a1 + B * vd1; a2 := sa + B * vd2;
          s11 := s11 x; s21 := s21 x; s22 := s22 x;
          f1 := vf1; f2 := vf2; nu := nu x; chi1 := 1; chi2 := chi2 x; d1 := d1 x; d2 := d2 x |}.

(** All cells; [map] is the map of base materials, [T] the temperatures. *)
Definition lra_update (transport steady : bool) (t : R) (map : list nat) (T : list R) : res (list xs) :=
  mapM (fun i => do m <- rd map i; do x <- rd T i; update_cell transport steady t m x) (seq 0 (length map)).

(** LRA.hh 78-118: what the object keeps: the multiphysics variable, d_T, d_P. *)
Record lra := { l_var : list R; l_T : list R; l_P : list R }.
(** LRA.cc 19-28 and 46-47 *)
Definition lra_new (n : nat) : lra := {| l_var := repeat 300 n; l_T := repeat 300 n; l_P := repeat 0 n |}.
(** LRA.hh 83-84 *)
Definition lra_temperature (s : lra) : list R := l_T s.
Definition lra_power (s : lra) : list R := l_P s.
(** LRA.cc 43-44: core area. *)
Definition lra_area (volume : nat -> R) (map : list nat) : res R :=
  for_ 0 (length map) 0 (fun i a => do m <- rd map i; Ok (if (m =? 4)%nat then a else a + volume i)).

(** LRA.cc 182-202: update_P_and_T; [sf] are the fission cross sections in the
    material (scaled by the critical eigenvalue), [phi] the fluxes. *)
Definition update_P_and_T (s : lra) (t : R) (sf phi : nat -> nat -> R) : lra :=
  let n := length (l_P s) in
  let F i := sf i 0%nat * phi 0%nat i + sf i 1%nat * phi 1%nat i in
  {| l_var := if Rlt_dec 0 t then map (fun i => ALPHA * F i) (seq 0 n) else l_var s;
     l_T := l_T s;
     l_P := map (fun i => KAPPA * F i) (seq 0 n) |}.

(** TimeStepper.cc 403-437 with LRA.hh 132-147: one update of the temperatures
    with a method of the given order; [prev k] the variable k + 1 steps ago. *)
Definition heat_step (s : lra) (t dt : R) (order : nat) (prev : nat -> list R) (sf phi : nat -> nat -> R) : res lra :=
  let s1 := update_P_and_T s t sf phi in
  do v <- mapM (fun j => do r <- rd (l_var s1) j; update_physics dt order r (fun k => nth j (prev k) 0))
               (seq 0 (length (l_var s1)));
  Ok {| l_var := v; l_T := l_T s1; l_P := l_P s1 |}.
