(** * Ext_Model: external sources
    Source: /repo/src/external_source/{ConstantSource,IsotropicSource,DiscreteSource}.{hh,cc},
    /repo/src/kinetics/{LinearExternalSource,PulsedExternalSource}.{i.hh,cc}, and their use
    in /repo/src/solvers/wg/WGSolver.cc 69-79 and /repo/src/transport/SweepSource.i.hh.
    Simplifications: a source holds its parts by value, so that the time of a part
    is not changed through another pointer to it; source maps hold natural numbers;
    a DiscreteSource is made with the quadrature of the solver. *)
From Verif Require Import Base BaseR Loop Angle_Model Kinetics_Model.
Open Scope nat_scope.

(** The data members.  [e_at] of a Linear source is (d_ia, d_ib, d_fa, d_fb), which
    the constructor leaves uninitialised (LinearExternalSource.cc 18-32); the factor
    of a Pulsed source starts as 0 (PulsedExternalSource.cc 18-33). *)
Inductive source :=
| Constant (strength : R)
| Isotropic (spectra : list (list R)) (place : list nat)
| Discrete (spectra : list (list (list R))) (place : list nat)
| Linear (times : list R) (parts : list source) (flag : bool) (at_ : option (nat * nat * R * R))
| Pulsed (part : source) (peak fwhm : R) (flag : bool) (factor : R).

(** The constructors of the time-dependent sources. *)
Definition linear_new (times : list R) (parts : list source) (flag : bool) : source := Linear times parts flag None.
Definition pulsed_new (part : source) (peak fwhm : R) (flag : bool) : source := Pulsed part peak fwhm flag 0%R.
(** PulsedExternalSource.hh 62, LinearExternalSource.hh: discrete = false *)
Definition flag_default : bool := false.

(** ExternalSource.hh 82 with the last argument of the base constructor: false in
    ConstantSource.cc 19 and IsotropicSource.cc 20, true in DiscreteSource.cc 20. *)
Definition is_discrete (s : source) : bool :=
  match s with
  | Constant _ => false
  | Isotropic _ _ => false
  | Discrete _ _ => true
  | Linear _ _ flag _ => flag
  | Pulsed _ _ _ flag _ => flag
  end.

(** source(cell, group): ConstantSource.hh 53-58, IsotropicSource.hh 56-63,
    DiscreteSource.hh 55-70, LinearExternalSource.i.hh 17-29,
    PulsedExternalSource.i.hh 19-27. *)
Fixpoint moment (q : quad) (s : source) (c g : nat) : res R :=
  match s with
  | Constant x => Ok x
  | Isotropic sp pl => do k <- rd pl c; rd2 sp k g
  | Discrete sp pl =>
      for_ 0 (q_noct q) 0%R (fun o v =>
        for_ 0 (q_nao q) v (fun a v =>
          do k <- rd pl c; do row <- rd2 sp k g; do x <- rd row (index q o a); do w <- rd (q_wt q) a;
          Ok (v + x * w)%R))
  | Linear _ parts _ at_ =>
      match at_ with
      | None => UB
      | Some (ia, ib, fa, fb) =>
          let all := map (fun p => moment q p c g) parts in
          do ra <- rd all ia; do a <- ra; do rb <- rd all ib; do b <- rb;
          Ok (0 + fa * a + fb * b)%R
      end
  | Pulsed p _ _ _ f => do a <- moment q p c g; Ok (f * a)%R
  end.
(** source(cell, group, angle): ConstantSource.hh 60-66, IsotropicSource.hh 65-74,
    DiscreteSource.hh 72-80, LinearExternalSource.i.hh 32-44,
    PulsedExternalSource.i.hh 30-40; [dim] is the dimension of the mesh. *)
Fixpoint discrete (dim : nat) (s : source) (c g angle : nat) : res R :=
  match s with
  | Constant x => Ok (x * angular_norm dim)%R
  | Isotropic sp pl => do k <- rd pl c; do x <- rd2 sp k g; Ok (x * angular_norm dim)%R
  | Discrete sp pl => do k <- rd pl c; do row <- rd2 sp k g; rd row angle
  | Linear _ parts _ at_ =>
      match at_ with
      | None => UB
      | Some (ia, ib, fa, fb) =>
          let all := map (fun p => discrete dim p c g angle) parts in
          do ra <- rd all ia; do a <- ra; do rb <- rd all ib; do b <- rb;
          Ok (0 + fa * a + fb * b)%R
      end
  | Pulsed p _ _ _ f => do a <- discrete dim p c g angle; Ok (f * a)%R
  end.

(** PulsedExternalSource.i.hh 43-50 *)
Definition pulse (peak fwhm t : R) : R :=
  let den := (2 * (fwhm / (2354820045030949 / 10 ^ 15)) ^ 2)%R in exp (- (t - peak) ^ 2 / den)%R.
(** set_time: LinearExternalSource.i.hh 47-75 (bracket), PulsedExternalSource.i.hh
    43-50.  The other sources do not depend on time and have no such function. *)
Definition set_time (s : source) (t : R) : res source :=
  match s with
  | Linear times parts flag _ => do b <- bracket times t; Ok (Linear times parts flag (Some b))
  | Pulsed p peak fwhm flag _ => Ok (Pulsed p peak fwhm flag (pulse peak fwhm t))
  | _ => Ok s
  end.

(** What one source contributes to the sweep source of octant o and angle a:
    WGSolver.cc 69-79 sorts the sources by is_discrete; SweepSource.i.hh 22-36 and
    130-131 add and scale the moment sources; 150-157 add the discrete ones.  The
    moment to discrete entry of order 0 is the angular norm (MomentToDiscrete.i.hh
    60-112, see Harm_Model). *)
Definition emission (dim : nat) (q : quad) (s : source) (c g o a : nat) : res R :=
  if is_discrete s then do x <- discrete dim s c g (index q o a); Ok (0 * angular_norm dim + x)%R
  else do m <- moment q s c g; Ok ((0 + m + 0) * angular_norm dim)%R.
