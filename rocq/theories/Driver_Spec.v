(** * Specification vocabulary for the driver program *)
From Coq Require Import String.
From Verif Require Import Base BaseR Loop Util_Model Mesh_Model Mesh_Spec Manager_Model Driver_Model.
Open Scope string_scope.
Open Scope nat_scope.
Set Implicit Arguments.

(** What the user has put in the database. *)
Definition has_int {Sub} (d : db Sub) k z : Prop := getv d TInt k = Ok (VInt z).
Definition has_dbl {Sub} (d : db Sub) k x : Prop := getv d TDbl k = Ok (VDbl x).
Definition has_vi {Sub} (d : db Sub) k l : Prop := getv d TVecInt k = Ok (VVecInt l).
Definition has_vd {Sub} (d : db Sub) k l : Prop := getv d TVecDbl k = Ok (VVecDbl l).

(** The mesh described by coarse edges, fine counts and a coarse map. *)
Definition described (n : nat) (xf yf zf : list nat) (xc yc zc : list R) (mm : list Z) (m : mesh) : Prop :=
  mesh_good m /\ dim m = n /\
  ncx m = list_sum xf /\ ncy m = list_sum yf /\ ncz m = list_sum zf /\
  axis_widths xf xc (mdx m) /\ axis_widths yf yc (mdy m) /\ axis_widths zf zc (mdz m) /\
  coarse_map_ok xf yf zf mm (mat m) /\ List.length (mat m) = ncells m.

(** Coarse input of one axis. *)
Definition gives_axis {Sub} (d : db Sub) (ke kf : string) (e : list R) (f : list Z) : Prop :=
  has_vd d ke e /\ has_vi d kf f /\ axis_ok (nats f) e.
