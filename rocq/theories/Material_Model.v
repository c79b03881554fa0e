(** * Model of detran_material::Material
    Source: /repo/src/material/Material.{hh,cc}.
    Simplifications: [double] is [R]; the vectors are total functions of their
    indices (indices out of range violate a Require); display and
    serialisation are not modelled. *)
From Verif Require Import Base BaseR.
Open Scope nat_scope.

(** Material.hh 206-235.  The bounds are d_scatter_bounds[g][0..3]; [ss g gp m]
    is d_sigma_s[g][gp][m], [st g m] d_sigma_t[g][m], and so on. *)
Record mtl := {
  ng : nat; nm : nat;
  st : nat -> nat -> R; sa : nat -> nat -> R; nsf : nat -> nat -> R; sf : nat -> nat -> R;
  nu : nat -> nat -> R; chi : nat -> nat -> R; ss : nat -> nat -> nat -> R; dc : nat -> nat -> R;
  b0 : nat -> nat; b1 : nat -> nat; b2 : nat -> nat; b3 : nat -> nat;
  cut0 : nat; cut1 : nat; ds0 : bool; ds1 : bool; fin : bool }.

(** Material.cc 24-49 *)
Definition material_new (nmat ngrp : nat) : mtl :=
  let z := fun _ _ : nat => 0%R in
  {| ng := ngrp; nm := nmat; st := z; sa := z; nsf := z; sf := z; nu := fun _ _ => 1%R; chi := z;
     ss := fun _ _ _ => 0%R; dc := z; b0 := fun _ => 0; b1 := fun _ => 0; b2 := fun _ => 0; b3 := fun _ => 0;
     cut0 := ngrp; cut1 := 0; ds0 := false; ds1 := false; fin := false |}.

Definition set2 (f : nat -> nat -> R) (i j : nat) (v : R) : nat -> nat -> R :=
  fun a b => if (a =? i) && (b =? j) then v else f a b.
Definition set3 (f : nat -> nat -> nat -> R) (i j k : nat) (v : R) : nat -> nat -> nat -> R :=
  fun a b c => if (a =? i) && (b =? j) && (c =? k) then v else f a b c.

Definition positive (x : R) : bool := if Rlt_dec 0 x then true else false.

(** Material.cc 284-296: bounds of row g; [s gp m] is the transfer into g from gp. *)
Definition row_lower (n nmat g : nat) (s : nat -> nat -> R) : nat :=
  fold_left (fun lo m => fold_left (fun lo gp => if positive (s gp m) then Nat.min gp lo else lo) (seq 0 g) lo)
            (seq 0 nmat) g.
Definition row_upper (n nmat g : nat) (s : nat -> nat -> R) : nat :=
  fold_left (fun up m => fold_left (fun up gp => if positive (s gp m) then Nat.max gp up else up) (seq 0 n) up)
            (seq 0 nmat) g.

(** Material.cc 323-330: first group with bounds[g][1] > g. *)
Fixpoint first_up (b : nat -> nat) (g n : nat) (dflt : nat) : nat :=
  match n with
  | O => dflt
  | S k => if g <? b g then g else first_up b (S g) k dflt
  end.
(** Material.cc 333-340: last group with bounds[g][3] < g. *)
Fixpoint last_down (b : nat -> nat) (n : nat) (dflt : nat) : nat :=
  match n with
  | O => dflt
  | S g => if b g <? g then g else last_down b g dflt
  end.

(** Material.cc 271-354 *)
Definition finalize (m : mtl) : mtl :=
  let b0' := fun g => row_lower (ng m) (nm m) g (fun gp k => ss m g gp k) in
  let b1' := fun g => row_upper (ng m) (nm m) g (fun gp k => ss m g gp k) in
  let b2' := fun gp => row_upper (ng m) (nm m) gp (fun g k => ss m g gp k) in
  let b3' := fun gp => row_lower (ng m) (nm m) gp (fun g k => ss m g gp k) in
  let c0 := first_up b1' 0 (ng m) (cut0 m) in
  let c1 := last_down b3' (ng m) (cut1 m) in
  {| ng := ng m; nm := nm m; st := st m; sa := sa m;
     nsf := fun g k => (nu m g k * sf m g k)%R;
     sf := sf m; nu := nu m; chi := chi m; ss := ss m; dc := dc m;
     b0 := b0'; b1 := b1'; b2 := b2'; b3 := b3'; cut0 := c0; cut1 := c1;
     ds0 := if c0 =? ng m then true else ds0 m;
     ds1 := if c1 =? ng m then true else ds1 m; fin := true |}.

(** Material.cc 211-240 *)
Definition lower (m : mtl) (g : nat) (tran : bool) : nat := if tran then b2 m g else b0 m g.
Definition upper (m : mtl) (g : nat) (tran : bool) : nat := if tran then b3 m g else b1 m g.
Definition downscatter (m : mtl) (tran : bool) : bool := if tran then ds1 m else ds0 m.
Definition upscatter_cutoff (m : mtl) (tran : bool) : nat := if tran then cut1 m else cut0 m.

(** Material.cc 243-255 *)
Definition compute_sigma_a (m : mtl) : mtl :=
  {| ng := ng m; nm := nm m; st := st m;
     sa := fun g k => fold_left (fun a gp => (a - ss m gp g k)%R) (seq 0 (ng m)) (st m g k);
     nsf := nsf m; sf := sf m; nu := nu m; chi := chi m; ss := ss m; dc := dc m;
     b0 := b0 m; b1 := b1 m; b2 := b2 m; b3 := b3 m; cut0 := cut0 m; cut1 := cut1 m;
     ds0 := ds0 m; ds1 := ds1 m; fin := fin m |}.
(** Material.cc 258-268 *)
Definition compute_diff_coef (m : mtl) : mtl :=
  {| ng := ng m; nm := nm m; st := st m; sa := sa m; nsf := nsf m; sf := sf m; nu := nu m; chi := chi m;
     ss := ss m; dc := fun g k => ((1 / 3) / st m g k)%R;
     b0 := b0 m; b1 := b1 m; b2 := b2 m; b3 := b3 m; cut0 := cut0 m; cut1 := cut1 m;
     ds0 := ds0 m; ds1 := ds1 m; fin := fin m |}.

(** Material.cc 58-204: the setters ([Material, group, value]); the vectorised
    forms are sequences of these. *)
Inductive field := FT | FA | FNSF | FSF | FNU | FCHI | FDC.
Inductive mop :=
| Set_ (f : field) (m g : nat) (v : R)
| SetS (m g gp : nat) (v : R)
| SetDown (v tran : bool)
| ComputeA
| ComputeD
| Finalize.

Definition set_field (x : mtl) (f : field) (k g : nat) (v : R) : mtl :=
  let u h := set2 h g k v in
  {| ng := ng x; nm := nm x;
     st := match f with FT => u (st x) | _ => st x end;
     sa := match f with FA => u (sa x) | _ => sa x end;
     nsf := match f with FNSF => u (nsf x) | _ => nsf x end;
     sf := match f with FSF => u (sf x) | _ => sf x end;
     nu := match f with FNU => u (nu x) | _ => nu x end;
     chi := match f with FCHI => u (chi x) | _ => chi x end;
     ss := ss x;
     dc := match f with FDC => u (dc x) | _ => dc x end;
     b0 := b0 x; b1 := b1 x; b2 := b2 x; b3 := b3 x; cut0 := cut0 x; cut1 := cut1 x;
     ds0 := ds0 x; ds1 := ds1 x; fin := fin x |}.
(** Material.cc 113-120 *)
Definition set_scatter (x : mtl) (k g gp : nat) (v : R) : mtl :=
  {| ng := ng x; nm := nm x; st := st x; sa := sa x; nsf := nsf x; sf := sf x; nu := nu x; chi := chi x;
     ss := set3 (ss x) g gp k v; dc := dc x;
     b0 := b0 x; b1 := b1 x; b2 := b2 x; b3 := b3 x; cut0 := cut0 x; cut1 := cut1 x;
     ds0 := ds0 x; ds1 := ds1 x; fin := fin x |}.
(** Material.hh 79-84 *)
Definition set_downscatter (x : mtl) (v tran : bool) : mtl :=
  let y := {| ng := ng x; nm := nm x; st := st x; sa := sa x; nsf := nsf x; sf := sf x; nu := nu x; chi := chi x;
     ss := ss x; dc := dc x;
     b0 := b0 x; b1 := b1 x; b2 := b2 x; b3 := b3 x; cut0 := cut0 x; cut1 := cut1 x;
     ds0 := v; ds1 := (if tran then v else ds1 x); fin := fin x |} in
  if fin x then finalize y else y.

Definition step (x : mtl) (o : mop) : mtl :=
  match o with
  | Set_ f k g v => set_field x f k g v
  | SetS k g gp v => set_scatter x k g gp v
  | SetDown v t => set_downscatter x v t
  | ComputeA => compute_sigma_a x
  | ComputeD => compute_diff_coef x
  | Finalize => finalize x
  end.
Definition run_ops (x : mtl) (l : list mop) : mtl := fold_left step l x.
