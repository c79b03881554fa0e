(** * Specification vocabulary for time-dependent materials (C125) *)
From Verif Require Import Base BaseR Material_Model Kinetics_Model.
Open Scope nat_scope.

(** Nothing a reader of cross sections, kinetics data or scattering bounds can
    tell apart. *)
Definition same_data (a b : kmtl) : Prop :=
  let x := kb a in let y := kb b in
  ng x = ng y /\ nm x = nm y /\ np a = np b /\
  (forall g m, g < ng x -> m < nm x ->
     st x g m = st y g m /\ sa x g m = sa y g m /\ nsf x g m = nsf y g m /\ sf x g m = sf y g m /\
     nu x g m = nu y g m /\ chi x g m = chi y g m /\ dc x g m = dc y g m) /\
  (forall g gp m, g < ng x -> gp < ng x -> m < nm x -> ss x g gp m = ss y g gp m) /\
  (forall g, g < ng x -> vel a g = vel b g) /\
  (forall i, i < np a -> lam a i = lam b i) /\
  (forall i m, i < np a -> m < nm x -> beta a i m = beta b i m) /\
  (forall g i m, g < ng x -> i < np a -> m < nm x -> chid a g i m = chid b g i m) /\
  (forall g tran, g < ng x -> lower x g tran = lower y g tran /\ upper x g tran = upper y g tran).
(** What the multigroup solvers ask about upscatter. *)
Definition same_flags (a b : kmtl) : Prop :=
  forall tran, upscatter_cutoff (kb a) tran = upscatter_cutoff (kb b) tran /\ downscatter (kb a) tran = downscatter (kb b) tran.

(** Two calls end the same way. *)
Definition agree (same : kmtl -> kmtl -> Prop) (r s : res kmtl) : Prop :=
  match r, s with
  | Ok a, Ok b => same a b
  | Err, Err => True
  | UB, UB => True
  | _, _ => False
  end.
