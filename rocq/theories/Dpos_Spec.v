(** * Specification vocabulary: positivity and uniqueness of diffusion solutions *)
From Verif Require Import Base BaseR Mesh_Model Mesh_Spec Material_Model Matrix_Model Matrix_Spec Diffusion_Model Diffusion_Spec Dsolve_Model Dsolve_Spec.
Open Scope nat_scope.

(** phi is what some call of solve() with input i and keff k leaves in the state,
    for some exact linear solver, some sorting routine and after some earlier
    calls. *)
Definition returned (P : dprob) (i : dinput) (k : R) (phi : nat -> nat -> R) : Prop :=
  exists srt lin calls s r, is_sort srt /\ exact lin /\ keffs_ok P (map snd calls ++ [k]) /\
    (forall i k, In (i, k) calls -> call_ok P i) /\ call_ok P i /\
    d_runs srt lin P calls = Ok s /\ d_solve srt lin P s i k = Ok r /\
    forall g c, g < ng (q_mat P) -> c < ncells (q_mesh P) -> phi g c = nth c (nth g (r_phi r) []) 0%R.

(** Every material used absorbs more neutrons of each group than its fissions,
    weighted by 1/keff, give back. *)
Definition absorbing (P : dprob) (k : R) : Prop :=
  let x := q_mat P in
  (forall g c, g < ng x -> c < ncells (q_mesh P) ->
     let t := mt (q_mesh P) c in
     (rsum (ng x) (fun q => ss x q g t) + (if q_mult P then / k * (nsf x g t * rsum (ng x) (fun q => chi x q t)) else 0) < st x g t)%R) /\
  (q_mult P = true -> (0 < k)%R /\ forall g c, g < ng x -> c < ncells (q_mesh P) ->
     (0 <= chi x g (mt (q_mesh P) c) /\ 0 <= nsf x g (mt (q_mesh P) c))%R).

(** The sources of i are nowhere above those of i'. *)
Definition weaker (P : dprob) (i i' : dinput) : Prop :=
  let m := q_mesh P in
  forall g, g < ng (q_mat P) ->
    (forall c, c < ncells m -> (vsource P i c g <= vsource P i' c g)%R) /\
    (forall s c, s < 2 * dim m -> outer m s c -> (at_face m (i_in i) s g c <= at_face m (i_in i') s g c)%R).
Definition nonnegative (P : dprob) (i : dinput) : Prop :=
  let m := q_mesh P in
  forall g, g < ng (q_mat P) ->
    (forall c, c < ncells m -> (0 <= vsource P i c g)%R) /\
    (forall s c, s < 2 * dim m -> outer m s c -> (0 <= at_face m (i_in i) s g c)%R).

(** Groups that neutrons reach: from a source, an incident current, or by
    scattering (and fission, when in the operator) from groups that are reached.
    In adjoint problems transfers are reversed. *)
Definition transfers (P : dprob) (g gp c : nat) : Prop :=
  let x := q_mat P in let t := mt (q_mesh P) c in
  (0 < (if q_adj P then ss x gp g t else ss x g gp t))%R \/
  (q_mult P = true /\ (0 < (if q_adj P then chi x gp t * nsf x g t else chi x g t * nsf x gp t))%R).
Inductive reached (P : dprob) (i : dinput) : nat -> Prop :=
| reached_source g c : g < ng (q_mat P) -> c < ncells (q_mesh P) -> (0 < vsource P i c g)%R -> reached P i g
| reached_current g c s : g < ng (q_mat P) -> s < 2 * dim (q_mesh P) -> outer (q_mesh P) s c ->
    (0 < at_face (q_mesh P) (i_in i) s g c)%R -> reached P i g
| reached_transfer g gp c : g < ng (q_mat P) -> gp < ng (q_mat P) -> c < ncells (q_mesh P) -> transfers P g gp c ->
    reached P i gp -> reached P i g.
