(** * Model of the kinetics data, synthetic sources and the time stepper
    Source: /repo/src/kinetics and /repo/src/solvers/time/TimeStepper.cc.
    Simplifications: [double] is [R], divisions are those of [R] (the theorems
    assume nonzero divisors); material data are total functions of their
    indices; a loop that writes distinct entries from data it does not write is
    a pointwise function; printing and Silo output are not modelled. *)
From Verif Require Import Base BaseR Loop Material_Model Source_Model.
Open Scope R_scope.

(** ** BDFCoefficients.hh 21-29 *)
Definition bdf_table : list (list R) :=
  [ [  1      ;   1      ;    0      ;   0      ;    0      ;  0      ;   0      ];
    [  3 /  2 ;   4 /  2 ; -  1 /  2 ;   0      ;    0      ;  0      ;   0      ];
    [ 11 /  6 ;  18 /  6 ; -  9 /  6 ;   2 /  6 ;    0      ;  0      ;   0      ];
    [ 25 / 12 ;  48 / 12 ; - 36 / 12 ;  16 / 12 ; -  3 / 12 ;  0      ;   0      ];
    [137 / 60 ; 300 / 60 ; -300 / 60 ; 200 / 60 ; - 75 / 60 ; 12 / 60 ;   0      ];
    [147 / 60 ; 360 / 60 ; -450 / 60 ; 400 / 60 ; -225 / 60 ; 72 / 60 ; - 10 / 60] ].
(** bdf_coefs[order - 1][j]; order 0 indexes far outside the array. *)
Definition bdf (order j : nat) : res R :=
  match order with O => UB | S q => do row <- rd bdf_table q; rd row j end.

(** ** Interpolation tables *)

(** LinearMaterial.cc 66-93 and LinearExternalSource.i.hh 51-74 (same code):
    indices and factors of the two neighbouring tables. *)
Definition bracket (times : list R) (t : R) : res (nat * nat * R * R) :=
  let n := length times in
  do t0 <- rd times 0;
  if Rle_dec t t0 then Ok (0%nat, 0%nat, 1, 0)
  else
    do tn <- rd times (n - 1);
    if Rlt_dec tn t then Ok ((n - 1)%nat, (n - 1)%nat, 1, 0)
    else
      do ib <- for_ 1 n 0%nat (fun i ib =>
                 do a <- rd times (i - 1); do b <- rd times i;
                 Ok (if Rlt_dec a t then if Rle_dec t b then i else ib else ib));
      match ib with
      | O => UB
      | S ia =>
          do a <- rd times ia; do b <- rd times ib;
          let fb := (t - a) / (b - a) in
          Ok (ia, ib, 1 - fb, fb)
      end.

(** LinearExternalSource.i.hh 17-44: [src i] is the value of source i. *)
Definition linear_source (times : list R) (src : nat -> R) (t : R) : res R :=
  do (ia, ib, fa, fb) <- bracket times t; Ok (0 + fa * src ia + fb * src ib).

(** KineticsMaterial.hh: the base data plus velocity[g], lambda[i], beta[i][m],
    chi_d[g][i][m]. *)
Record kmtl := { kb : mtl; np : nat; vel : nat -> R; lam : nat -> R; beta : nat -> nat -> R; chid : nat -> nat -> nat -> R }.

(** LinearMaterial.cc 101-135.  d_velocity and d_lambda keep the values of the
    first table (lines 48-52); d_nu_sigma_f is not written. *)
Definition mix (cA cB x y : R) : R := cA * x + cB * y.
Definition mix_material (self A B : kmtl) (cA cB : R) : kmtl :=
  let f2 h := fun g m => if ((g <? ng (kb self)) && (m <? nm (kb self)))%nat%bool
                         then mix cA cB (h (kb A) g m) (h (kb B) g m) else h (kb self) g m in
  let x := kb self in
  {| kb := {| ng := ng x; nm := nm x; st := f2 st; sa := f2 sa; nsf := nsf x; sf := f2 sf; nu := f2 nu; chi := f2 chi;
              ss := fun g gp m => if ((g <? ng x) && (gp <? ng x) && (m <? nm x))%nat%bool
                                  then mix cA cB (ss (kb A) g gp m) (ss (kb B) g gp m) else ss x g gp m;
              dc := f2 dc; b0 := b0 x; b1 := b1 x; b2 := b2 x; b3 := b3 x; cut0 := cut0 x; cut1 := cut1 x;
              ds0 := ds0 x; ds1 := ds1 x; fin := fin x |};
     np := np self; vel := vel self; lam := lam self;
     beta := fun i m => if ((i <? np self) && (m <? nm x))%nat%bool then mix cA cB (beta A i m) (beta B i m) else beta self i m;
     chid := fun g i m => if ((g <? ng x) && (i <? np self) && (m <? nm x))%nat%bool
                          then mix cA cB (chid A g i m) (chid B g i m) else chid self g i m |}.
(** LinearMaterial.cc 63-98 *)
Definition linear_update (times : list R) (mats : list kmtl) (self : kmtl) (t : R) : res kmtl :=
  do (ia, ib, fa, fb) <- bracket times t;
  do A <- rd mats ia; do B <- rd mats ib;
  Ok (mix_material self A B fa fb).

(** KineticsMaterial.i.hh 39-46 *)
Definition beta_total (x : kmtl) (m : nat) : R := fold_left (fun v i => v + beta x i m) (seq 0 (np x)) 0.

Definition with_base (x : kmtl) (b : mtl) : kmtl :=
  {| kb := b; np := np x; vel := vel x; lam := lam x; beta := beta x; chid := chid x |}.
(** KineticsMaterial.cc 82-120: the Insists; the Asserts are debug only. *)
Definition kfinalize (x : kmtl) : res kmtl :=
  if (forallb (fun i => positive (lam x i)) (seq 0 (np x)) && forallb (fun g => positive (vel x g)) (seq 0 (ng (kb x))))%bool
  then Ok (with_base x (finalize (kb x))) else Err.

(** TimeDependentMaterial.cc 44-88: [x] is the material after update_impl. *)
Definition td_update (kcrit : R) (x : kmtl) (dt : R) (order : nat) (synthetic : bool) : res kmtl :=
  do a0 <- bdf order 0;
  let b := kb x in
  let ins g m := ((g <? ng b) && (m <? nm b))%nat%bool in
  let sf' := fun g m => if ins g m then sf b g m / kcrit else sf b g m in
  let st' := fun g m => if ins g m then st b g m + a0 / (vel x g * dt) else st b g m in
  let chi' := fun g m => if ins g m then
      fold_left (fun v i => v + lam x i * chid x g i m * dt * beta x i m / (a0 + dt * lam x i)) (seq 0 (np x))
        ((1 - beta_total x m) * chi b g m) else chi b g m in
  kfinalize (with_base x
    {| ng := ng b; nm := nm b; st := if synthetic then st' else st b; sa := sa b; nsf := nsf b; sf := sf'; nu := nu b;
       chi := if synthetic then chi' else chi b; ss := ss b; dc := dc b;
       b0 := b0 b; b1 := b1 b; b2 := b2 b; b3 := b3 b; cut0 := cut0 b; cut1 := cut1 b; ds0 := ds0 b; ds1 := ds1 b; fin := fin b |}).

(** ** Synthetic sources *)

(** A state's scalar fluxes [group][cell], angular fluxes [group][angle][cell],
    and a set of precursor concentrations [precursor][cell]. *)
Notation fluxes := (list (list R)).
Notation concs := (list (list R)).

(** The loops shared by SyntheticMomentSource.i.hh 61-118 and
    SyntheticDiscreteSource.i.hh 71-143 (there for one angle: every angle runs
    the same statements on its own vectors).  [prec] is empty if there are no
    precursors; [fC aj lambda a0] is C_factor. *)
Definition add_row (s : list (list R)) (g n : nat) (v : nat -> res R) : res (list (list R)) :=
  do row <- rd s g; do row <- add_cells n v row; wr s g row.
Definition chid_at (x : kmtl) (mt : list nat) (c i g : nat) : res R := do m <- rd mt c; Ok (chid x g i m).
Definition build_rows (x : kmtl) (n : nat) (mt : list nat) (dt : R) (states : list fluxes) (prec : list concs) (order : nat)
  (fC : R -> R -> R -> R) (s : list (list R)) : res (list (list R)) :=
  let npr := match prec with [] => 0%nat | C :: _ => length C end in
  do a0 <- bdf order 0;
  do s <- for_ 0 (ng (kb x)) s (fun g s => do row <- rd s g; do row <- zero_cells n row; wr s g row);
  for_ 0 order s (fun j s =>
    do aj <- bdf order (S j);
    do phi <- rd states j;
    for_ 0 (ng (kb x)) s (fun g s =>
      do pg <- rd phi g;
      do s <- add_row s g n (fun c => do p <- rd pg c; Ok (aj / dt / vel x g * p));
      for_ 0 npr s (fun i s =>
        do C <- rd prec j; do Ci <- rd C i;
        add_row s g n (fun c => do v <- rd Ci c; do w <- chid_at x mt c i g; Ok (fC aj (lam x i) a0 * w * v))))).
(** SyntheticMomentSource.i.hh 41-122 *)
Definition build_moment (x : kmtl) (n : nat) (mt : list nat) (dt : R) (states : list fluxes) (prec : list concs) (order : nat)
  (s : list (list R)) : res (list (list R)) :=
  build_rows x n mt dt states prec order (fun aj la a0 => aj * la / (a0 + dt * la)) s.
(** SyntheticMomentSource.i.hh 28-38: the source per angle *)
Definition moment_source_angle (norm : R) (s : list (list R)) (c g : nat) : res R := do row <- rd s g; do v <- rd row c; Ok (v * norm).

(** SyntheticDiscreteSource.i.hh 51-145 for one angle; [psis] holds that
    angle's fluxes [step][group][cell]. *)
Definition build_discrete (x : kmtl) (n : nat) (mt : list nat) (norm dt : R) (psis : list fluxes) (prec : list concs) (order : nat)
  (s : list (list R)) : res (list (list R)) :=
  build_rows x n mt dt psis prec order (fun aj la a0 => aj * norm * la / (a0 + dt * la)) s.
(** SyntheticDiscreteSource.i.hh 17-35: [s] is indexed [angle][group][cell],
    [ws] lists weight(a) of every angle index. *)
Definition discrete_source (ws : list R) (s : list (list (list R))) (c g : nat) : res R :=
  for_ 0 (length ws) 0 (fun a v => do w <- rd ws a; do sa <- rd s a; do row <- rd sa g; do q <- rd row c; Ok (v + q * w)).

(** ** Precursors (TimeStepper.cc) *)

Definition set_row (n : nat) (C : concs) (i : nat) (v : nat -> res R) : res concs :=
  do row <- rd C i;
  do row <- for_ 0 n row (fun c row => do a <- v c; wr row c a);
  wr C i row.
(** 337-346: [fd] is the fission density *)
Definition init_precursors (x : kmtl) (n : nat) (mt : list nat) (fd : list R) (C : concs) : res concs :=
  for_ 0 (np x) C (fun i C =>
    set_row n C i (fun c => do m <- rd mt c; do f <- rd fd c; Ok (1 / lam x i * beta x i m * f))).
(** 379-399 *)
Definition update_precursors (x : kmtl) (n : nat) (mt : list nat) (dt : R) (order : nat) (fd : list R) (prev : list concs) (C : concs) : res concs :=
  for_ 0 (np x) C (fun i C =>
    do a0 <- bdf order 0;
    let A := dt / (a0 + dt * lam x i) in
    set_row n C i (fun c =>
      do m <- rd mt c; do f <- rd fd c;
      for_ 1 (S order) (0 + A * beta x i m * f) (fun j v =>
        do aj <- bdf order j;
        do Cj <- rd prev (j - 1); do Ci <- rd Cj i; do w <- rd Ci c;
        Ok (v + A / dt * aj * w)))).
(** 427-434: one multiphysics variable; [rhs] its time derivative on entry *)
Definition update_physics (dt : R) (order : nat) (rhs : R) (prev : nat -> R) : res R :=
  do a0 <- bdf order 0;
  do v <- for_ 1 (S order) (dt * rhs) (fun k v => do ak <- bdf order k; Ok (v + ak * prev (k - 1)%nat));
  Ok (v / a0).

(** ** History (TimeStepper.cc 195-274, 441-477)
    [heap] maps addresses of State objects to their contents, [ptrs] is the
    vector d_states of pointers.  The precursors and multiphysics vectors are
    handled by the same statements; [X] stands for the content of all three. *)
Definition cycle (order : nat) (ptrs : list nat) : res (list nat) :=
  match order with
  | O => UB
  | S o =>
      do tmp <- rd ptrs o;
      do ptrs <- for_ 0 o ptrs (fun i p => do v <- rd p (o - i - 1); wr p (o - i) v);
      wr ptrs 0 tmp
  end.
Definition store {X} (heap : nat -> X) (a : nat) (v : X) : nat -> X := fun b => if (b =? a)%nat then v else heap b.

(** 247-261: fixed point iterations of one step; [step] is TimeStepper::step and
    may read the history, [conv] is check_convergence. *)
Fixpoint fixed_point {X} (step : X -> res X) (conv : X -> X -> bool) (fuel : nat) (cur : X) : res X :=
  match fuel with
  | O => Ok cur
  | S f => do nxt <- step cur; if ((f =? 0)%nat || conv nxt cur)%bool then Ok nxt else fixed_point step conv f nxt
  end.

(** 233-243: scheme 0 is IMP *)
Definition extrapolated (imp no_extrap : bool) (order d_order : nat) : bool :=
  if (no_extrap && negb imp)%bool then false else (imp || ((order =? 1) && (1 <? d_order))%nat)%bool.

(** 225-272.  [stepf t dt order flag hist cur]: [hist j] is the content of slot
    j.  The result is the list of solutions, latest first, with the final
    pointers, heap and time. *)
Fixpoint steps {X} (stepf : R -> R -> nat -> bool -> (nat -> X) -> X -> res X) (conv : X -> X -> bool)
  (d_order maxit : nat) (imp no_extrap : bool) (d_dt : R)
  (todo i : nat) (t : R) (heap : nat -> X) (ptrs : list nat) (cur : X) (out : list X) : res (list X * list nat * (nat -> X) * R) :=
  match todo with
  | O => Ok (out, ptrs, heap, t)
  | S k =>
      let t := t + d_dt in
      let order := if (i <? d_order)%nat then i else d_order in
      let flag := extrapolated imp no_extrap order d_order in
      let dt := if flag then 1 / 2 * d_dt else d_dt in
      let hist j := heap (nth j ptrs 0%nat) in
      do cur <- fixed_point (stepf t dt order flag hist) conv maxit cur;
      do ptrs <- cycle d_order ptrs;
      do p0 <- rd ptrs 0;
      steps stepf conv d_order maxit imp no_extrap d_dt k (S i) t (store heap p0 cur) ptrs cur (cur :: out)
  end.
(** 203-225: the initial state goes to slot 0. *)
Definition ts_solve {X} stepf conv d_order maxit imp no_extrap (d_dt : R) (number_steps : nat) (heap : nat -> X) (ptrs : list nat) (init : X) :=
  do p0 <- rd ptrs 0;
  steps stepf conv d_order maxit imp no_extrap d_dt number_steps 1 0 (store heap p0 init) ptrs init [init].

(** 111-117: number of steps; [up] gives the ceiling, see the proofs. *)
Definition ceil (x : R) : Z := (- Int_part (- x))%Z.
Definition number_steps (final dt : R) (max_steps : option nat) : nat :=
  let n := Z.to_nat (ceil (final / dt)) in
  match max_steps with Some m => if (m <? n)%nat then m else n | None => n end.

(** 286-287 *)
Definition eval_time (t dt : R) (flag : bool) : R := if flag then t - dt else t.

(** ** Extrapolation of a half step (507-572) *)
(** 541-545 and 553-557: rows of the current and of the previous solution *)
Definition extrapolate_rows (rows n : nat) (prev cur : list (list R)) : res (list (list R)) :=
  for_ 0 rows cur (fun g cur =>
    do row <- rd cur g; do old <- rd prev g;
    do row <- for_ 0 n row (fun c row => do v <- rd row c; do w <- rd old c; wr row c (2 * v - w));
    wr cur g row).
(** 527-532: one angle of weight w *)
Definition extrapolate_angle (fixup : bool) (w : R) (n : nat) (p0 p phi : list R) : res (list R * list R) :=
  for_ 0 n (p, phi) (fun c s =>
    let '(p, phi) := s in
    do v <- rd p c; do v0 <- rd p0 c;
    let v := 2 * v - v0 in
    let v := if fixup then if Rlt_dec v 0 then 0 else v else v in
    do p <- wr p c v;
    do f <- rd phi c; do phi <- wr phi c (f + w * v);
    Ok (p, phi)).
(** 513-535 for one group: [psi], [psi0] are indexed [angle][cell] with the
    angles in the order of the octant and angle loops, [ws] holds weight(a) of
    each.  Result: the angular fluxes and the scalar flux. *)
Definition extrapolate_discrete (fixup : bool) (ws : list R) (n : nat) (psi0 psi : list (list R)) (phi : list R) : res (list (list R) * list R) :=
  do phi <- zero_cells n phi;
  for_ 0 (length ws) (psi, phi) (fun a s =>
    let '(psi, phi) := s in
    do w <- rd ws a; do p <- rd psi a; do p0 <- rd psi0 a;
    do (p, phi) <- extrapolate_angle fixup w n p0 p phi;
    do psi <- wr psi a p;
    Ok (psi, phi)).
