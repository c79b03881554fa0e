(** * Gen_Model: the fission generations of a fixed source problem.

    FixedSourceManager::iterate for the discrete ordinates solvers.  The
    multigroup solver is a parameter [mg]; the state, the boundary, the sweep
    source and the fission source it shares with the manager are a [tstate]
    (Iter_Model).  Not modelled: the diffusion discretisation, the messages, and
    the objects the manager creates in setup(). *)
From Verif Require Import Base BaseR Loop Util_Model Boundary_Model Material_Model Source_Model Sweep_Model Iter_Model.
From Coq Require Import ZArith.
Open Scope nat_scope.

(** FixedSourceManager.cc 266-269: d_sources.clear() and set_solver().  A new
    solver has a new sweep source without external sources, whose tables are zero
    (SweepSource.hh 121-122), and a new sweeper that has not swept.  The state, the
    boundary and the fission source are those of before. *)
Definition drop_sources (t : tstate) : tstate :=
  let x := t_x t in let z := repeat 0%R (cells (ssrc x)) in
  {| t_b := t_b t;
     t_x := {| ssrc := ssrc x; ext := []; dext := []; fiss := fiss x; implicit := implicit x; fixed := z; scat := z |};
     t_psi := t_psi t; t_sweeps := 0 |}.

(** State.cc 84-100: clear().  Every flux is set to zero; see state_clear in
    Source_Model for the loops. *)
Definition clear_state (t : tstate) : tstate :=
  {| t_b := t_b t; t_x := with_phis (t_x t) (map (map (fun _ => 0%R)) (phis t));
     t_psi := fun g o a => map (fun _ => 0%R) (t_psi t g o a); t_sweeps := t_sweeps t |}.
(** BoundaryBase.hh 165-168: clear() *)
Definition clear_boundary (b : bsn) : res bsn := for_ 0 (b_ng b) b (fun g b => bsn_clear b g).

(** FixedSourceManager.cc 282-291: the 2-norm of the change over all groups *)
Definition change (n : nat) (new old : list (list R)) : res R :=
  do s <- for_ 0 n 0%R (fun g s => do a <- rd new g; do b <- rd old g; do e <- norm_residual a b L2; Ok (s + e * e)%R);
  Ok (sqrt s).

(** FixedSourceManager.cc 244-294: iterate(generation) *)
Definition iterate (mg : tstate -> res tstate) (generation : Z) (t : tstate) : res (tstate * R) :=
  let old := phis t in
  do t <- (if Z.eqb generation 0 then do t <- mg t; Ok (drop_sources t)
           else do q <- pi_fission t;
                do q <- fis_update q;
                let t := clear_state (put_fission t q) in
                do b <- clear_boundary (t_b t);
                mg (with_b t b));
  do e <- change (ng (mat (ssrc (t_x t)))) (phis t) old;
  Ok (t, e).

(** What a client can do between two generations: FissionSource::update() and
    setup_outer(1) on the manager's fissionsource() (FixedSourceManager.hh 198,
    FissionSource.i.hh 16-45). *)
Definition client_setup (t : tstate) : res tstate :=
  do q <- pi_fission t; do q <- fis_update q; do q <- fis_setup_outer q 1; Ok (put_fission t q).
