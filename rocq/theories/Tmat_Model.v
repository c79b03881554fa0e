(** * Model of the life of time-dependent materials
    Source: /repo/src/kinetics/TimeIndependentMaterial.cc, LinearMaterial.cc
    16-52, TimeDependentMaterial.cc 17-88, KineticsMaterial.cc 17-33; the
    interpolation and the update itself are in Kinetics_Model.
    Simplifications: as there (double is R, vectors are total functions). *)
From Verif Require Import Base BaseR Material_Model Kinetics_Model.
Open Scope R_scope.
Set Implicit Arguments.

(** KineticsMaterial.cc 17-33 *)
Definition kmaterial_new (nmat ngrp npre : nat) : kmtl :=
  {| kb := material_new nmat ngrp; np := npre; vel := fun _ => 0; lam := fun _ => 0;
     beta := fun _ _ => 0; chid := fun _ _ _ => 0 |}.

(** TimeIndependentMaterial.cc 26-59: update_impl copies the data of [km]. *)
Definition constant_impl (km self : kmtl) : kmtl :=
  let x := kb self in
  let f2 h := fun g m => if ((g <? ng x) && (m <? nm x))%nat%bool then h (kb km) g m else h x g m in
  {| kb := {| ng := ng x; nm := nm x; st := f2 st; sa := f2 sa; nsf := f2 nsf; sf := f2 sf; nu := f2 nu; chi := f2 chi;
              ss := fun g gp m => if ((g <? ng x) && (gp <? ng x) && (m <? nm x))%nat%bool
                                  then ss (kb km) g gp m else ss x g gp m;
              dc := f2 dc; b0 := b0 x; b1 := b1 x; b2 := b2 x; b3 := b3 x; cut0 := cut0 x; cut1 := cut1 x;
              ds0 := ds0 x; ds1 := ds1 x; fin := fin x |};
     np := np self;
     vel := fun g => if ((g <? ng x) && (0 <? nm x))%nat%bool then vel km g else vel self g;
     lam := fun i => if (i <? np self)%nat then lam km i else lam self i;
     beta := fun i m => if ((i <? np self) && (m <? nm x))%nat%bool then beta km i m else beta self i m;
     chid := fun g i m => if ((g <? ng x) && (i <? np self) && (m <? nm x))%nat%bool then chid km g i m else chid self g i m |}.
(** TimeIndependentMaterial.cc 17-24 *)
Definition constant_new (km : kmtl) : kmtl :=
  constant_impl km (kmaterial_new (nm (kb km)) (ng (kb km)) (np km)).

(** LinearMaterial.cc 16-52 *)
Definition linear_new (mats : list kmtl) : res kmtl :=
  do a <- rd mats 0;
  Ok {| kb := material_new (nm (kb a)) (ng (kb a)); np := np a;
        vel := fun g => if (g <? ng (kb a))%nat then vel a g else 0;
        lam := fun i => if (i <? np a)%nat then lam a i else 0;
        beta := fun _ _ => 0; chid := fun _ _ _ => 0 |}.

(** The arguments of an update, and the eigenvalue set at that time. *)
Record call := { c_t : R; c_dt : R; c_order : nat; c_syn : bool; c_k : R }.
(** TimeDependentMaterial.cc 32-94 for the two classes. *)
Definition constant_update (km self : kmtl) (u : call) : res kmtl :=
  td_update (c_k u) (constant_impl km self) (c_dt u) (c_order u) (c_syn u).
Definition linear_call (times : list R) (mats : list kmtl) (self : kmtl) (u : call) : res kmtl :=
  do x <- linear_update times mats self (c_t u);
  td_update (c_k u) x (c_dt u) (c_order u) (c_syn u).
