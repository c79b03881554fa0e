(** * Specification vocabulary for the text input parser *)
From Coq Require Import String Ascii.
From Verif Require Import Base BaseR Util_Model Util_Spec Material_Model.
Open Scope string_scope.
Open Scope nat_scope.
Set Implicit Arguments.

Fixpoint all_chars (f : ascii -> bool) (s : string) : bool :=
  match s with EmptyString => true | String c r => f c && all_chars f r end.
Fixpoint spaces (n : nat) : string :=
  match n with 0 => "" | S n => String " "%char (spaces n) end.

(** A token: not empty, no spaces; a plain one has no white space at all. *)
Definition is_token (t : string) : Prop :=
  t <> "" /\ all_chars (fun c => negb (Ascii.eqb c " "%char)) t = true.
Definition plain (t : string) : Prop :=
  t <> "" /\ all_chars (fun c => negb ((nat_of_ascii c =? 32) || ((9 <=? nat_of_ascii c) && (nat_of_ascii c <=? 13)))) t = true.

(** A line that starts with the first token and separates the tokens by one
    or more spaces; spaces may follow the last. *)
Inductive spaced : list string -> string -> Prop :=
| spaced_one t n : is_token t -> spaced [t] (t ++ spaces n)
| spaced_more t n ts l : is_token t -> spaced ts l -> spaced (t :: ts) (t ++ spaces (S n) ++ l).

Section Lines.
  Variables (Sub : Type) (to_int to_vint : string -> res Z) (to_dbl : string -> res R).

  (** What a line of an input file says. *)
  Inductive writes : string -> option (string * value Sub) -> Prop :=
  | writes_int l k t z : spaced ["int"; k; t] l -> plain k -> to_int t = Ok z -> writes l (Some (k, VInt z))
  | writes_dbl l k t x : spaced ["dbl"; k; t] l -> plain k -> to_dbl t = Ok x -> writes l (Some (k, VDbl x))
  | writes_str l k t : spaced ["str"; k; t] l -> plain k -> plain t -> writes l (Some (k, VStr t))
  | writes_vec_int l k ts zs : spaced ("vec_int" :: k :: ts) l -> plain k ->
      Forall2 (fun t z => to_vint t = Ok z) ts zs -> writes l (Some (k, VVecInt zs))
  | writes_vec_dbl l k ts xs : spaced ("vec_dbl" :: k :: ts) l -> plain k ->
      Forall2 (fun t x => to_dbl t = Ok x) ts xs -> writes l (Some (k, VVecDbl xs))
  | writes_comment l : writes (String "#"%char l) None
  | writes_blank n : writes (spaces n) None
  | writes_other w ts l : spaced (w :: ts) l ->
      ~ In w ["int"; "dbl"; "str"; "vec_int"; "vec_dbl"] -> writes l None.

  (** What a line says about materials: the setter calls it stands for. *)
  Definition row (f : field) (m : nat) (v : list R) : list mop :=
    map (fun g => Set_ f m g (nth g v 0%R)) (seq 0 (List.length v)).
  Definition scatter_row (m g : nat) (v : list R) : list mop :=
    map (fun gp => SetS m g gp (nth gp v 0%R)) (seq 0 (List.length v)).
  Definition field_name (f : field) : string :=
    match f with FT => "sigma_t" | FA => "sigma_a" | FSF => "sigma_f" | FNU => "nu" | FCHI => "chi"
               | FDC => "diff_coef" | FNSF => "nu_sigma_f" end.

  Variables (nmat ngrp : nat) (down : bool).
  Inductive says_material : string -> list mop -> Prop :=
  | says_field l f tm m ts v : f <> FNSF -> spaced ("material" :: field_name f :: tm :: ts) l ->
      to_int tm = Ok (Z.of_nat m) -> m < nmat -> List.length v = ngrp ->
      Forall2 (fun t x => to_dbl t = Ok x) ts v -> says_material l (row f m v)
  | says_scatter l tm m tg g ts v : spaced ("material" :: "sigma_s" :: tm :: tg :: ts) l ->
      to_int tm = Ok (Z.of_nat m) -> to_int tg = Ok (Z.of_nat g) -> m < nmat -> g < ngrp -> List.length v = ngrp ->
      Forall2 (fun t x => to_dbl t = Ok x) ts v -> says_material l (scatter_row m g v)
  | says_count l t : spaced ["material"; "number_materials"; t] l -> to_int t = Ok (Z.of_nat nmat) ->
      says_material l []
  | says_down l t z : spaced ["material"; "downscatter"; t] l -> to_int t = Ok z -> (z <> 0%Z <-> down = true) ->
      says_material l []
  | says_comment l : says_material (String "#"%char l) []
  | says_blank n : says_material (spaces n) []
  | says_other w ts l : spaced (w :: ts) l -> w <> "material" -> says_material l [].
End Lines.
