(** * Theorems on the text input parser (C119) *)
From Coq Require Import String Ascii.
From Verif Require Import Base BaseR Util_Model Util_Spec Material_Model Mesh_Model Manager_Model Driver_Model
  Driver_Spec Parser_Model Parser_Spec Parser_Proofs Parser_Proofs2.
Open Scope string_scope.
Open Scope nat_scope.

(** C119 *)
Theorem C119_input :
  forall (Sub : Type) (to_int to_vint : string -> res Z) (to_dbl : string -> res R) lines items,
  Forall2 (@writes Sub to_int to_vint to_dbl) lines items ->
  parse_input Sub to_int to_vint to_dbl lines =
    Ok (put_hist (flat_map (fun o => match o with Some a => [a] | None => [] end) items) (empty_db Sub)).
Proof. exact @input_ok. Qed.
Print Assumptions C119_input.

Theorem C119_material_partial :
  forall (Sub : Type) (to_int : string -> res Z) (to_dbl : string -> res R) (nmat ngrp : nat) (down : bool)
         (d : db Sub) lines opss,
  has_int d "number_groups" (Z.of_nat ngrp) ->
  Forall2 (says_material to_int to_dbl nmat ngrp down) lines opss ->
  Exists (fun l => exists t, spaced ["material"; "number_materials"; t] l) lines ->
  (down = true -> Exists (fun l => exists t, spaced ["material"; "downscatter"; t] l) lines) ->
  parse_material to_int to_dbl d lines =
    Ok (run_ops (material_new nmat ngrp) (SetDown down false :: List.concat opss ++ [Finalize])%list).
Proof. exact @material_ok. Qed.
Print Assumptions C119_material_partial.

Theorem C119_fission_refuted :
  forall (Sub : Type) (to_int : string -> res Z) (to_dbl : string -> res R) (d : db Sub) a b ts l,
  spaced ("material" :: "nu_sigma_f" :: ts) l ->
  parse_material to_int to_dbl d (a ++ l :: b)%list = parse_material to_int to_dbl d (a ++ b)%list.
Proof. exact @fission_ignored. Qed.
Print Assumptions C119_fission_refuted.

Theorem C119_sections_refuted :
  forall (Sub : Type) (to_int to_vint : string -> res Z) (to_dbl : string -> res R) a b w ts l,
  w = "mesh" \/ w = "source" -> spaced (w :: ts) l ->
  parse_input Sub to_int to_vint to_dbl (a ++ l :: b)%list = parse_input Sub to_int to_vint to_dbl (a ++ b)%list.
Proof. exact @input_ignored. Qed.
Print Assumptions C119_sections_refuted.

Theorem C119_documented_refuted :
  forall (Sub : Type) (to_int to_vint : string -> res Z) (to_dbl : string -> res R) x,
  to_int "2" = Ok 2%Z -> to_dbl "1e-4" = Ok x ->
  exists d, parse_input Sub to_int to_vint to_dbl documented = Ok d /\
    has_int d "dimension" 2%Z /\ parse_mesh d = Err.
Proof. exact @documented_input. Qed.
Print Assumptions C119_documented_refuted.
