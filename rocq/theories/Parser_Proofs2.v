(** * Lines that the parser ignores, and a documented input *)
From Coq Require Import String Ascii.
From Verif Require Import Base BaseR Util_Model Util_Spec Material_Model Mesh_Model Manager_Model Driver_Model
  Driver_Spec Parser_Model Parser_Spec Parser_Proofs.
Open Scope string_scope.
Open Scope nat_scope.
Set Implicit Arguments.
Unset Strict Implicit.

Lemma foldM_drop A S (f : S -> A -> res S) a l b :
  (forall s, f s l = Ok s) -> forall s, foldM f (a ++ l :: b)%list s = foldM f (a ++ b)%list s.
Proof.
  intros H. induction a as [|x a IH]; intros s; simpl; [rewrite H; auto|].
  destruct (f s x); simpl; auto.
Qed.

Section Ignored.
  Variables (Sub : Type) (to_int to_vint : string -> res Z) (to_dbl : string -> res R).

  (** Lines of the documented sections mesh and source. *)
  Lemma input_ignored a b w ts l :
    w = "mesh" \/ w = "source" -> spaced (w :: ts) l ->
    parse_input Sub to_int to_vint to_dbl (a ++ l :: b)%list = parse_input Sub to_int to_vint to_dbl (a ++ b)%list.
  Proof.
    intros Hw H. apply foldM_drop. intros d.
    assert (W : @writes Sub to_int to_vint to_dbl l None).
    { eapply writes_other; eauto. destruct Hw as [-> | ->]; simpl; intuition discriminate. }
    exact (line_ok d W).
  Qed.

  (** The documented fission cross section. *)
  Lemma fission_ignored (d : db Sub) a b ts l :
    spaced ("material" :: "nu_sigma_f" :: ts) l ->
    parse_material to_int to_dbl d (a ++ l :: b)%list = parse_material to_int to_dbl d (a ++ b)%list.
  Proof.
    intros H. unfold parse_material. destruct (get_int d "number_groups"); [|auto|auto]. cbn [bind].
    destruct (line_split H) as (e & He & _ & HT & E1 & E2). inversion HT; subst.
    rewrite (@foldM_drop _ _ (count_line to_int)).
    - destruct (foldM (count_line to_int) (a ++ b)%list (0%Z, false)) as [c| |]; [|auto|auto]. cbn [bind].
      rewrite (@foldM_drop _ _ (material_line to_int to_dbl a0)); [auto|].
      intros x. unfold material_line. rewrite E1, E2.
      cbn [is_comment]. change (Ascii.eqb "m" "#") with false. cbv iota.
      rewrite token_joined by auto. reflexivity.
    - intros st. unfold count_line. rewrite E1, E2.
      cbn [is_comment]. change (Ascii.eqb "m" "#") with false. cbv iota.
      rewrite token_joined by auto. reflexivity.
  Qed.
End Ignored.

(** The example in StupidParser.hh 45-57 (up to the mesh). *)
Definition documented : list string :=
  [ "# General input (the ""#"" is ignored)";
    "int      number_groups           2";
    "int      dimension               2";
    "dbl      inner_max_tolerance     1e-4";
    "str      problem_type            fixed";
    "";
    "# Mesh (blank lines also ignored)";
    "mesh mesh_xcme 0.0 1.0 2.0";
    "mesh mesh_ycme 0.0 2.0 4.0";
    "mesh mesh_xfm  10";
    "mesh mesh_yfm  20";
    "# all arrays are read in 1d; logically these ordered by x->y->z";
    "mesh mesh_mat  0 0 1 0" ].

Lemma documented_input Sub (to_int to_vint : string -> res Z) (to_dbl : string -> res R) x :
  to_int "2" = Ok 2%Z -> to_dbl "1e-4" = Ok x ->
  exists d, parse_input Sub to_int to_vint to_dbl documented = Ok d /\
    has_int d "dimension" 2%Z /\ parse_mesh d = Err.
Proof.
  intros H1 H2.
  assert (E : parse_input Sub to_int to_vint to_dbl documented =
    Ok (put_hist [("number_groups", VInt 2%Z); ("dimension", VInt 2%Z);
                  ("inner_max_tolerance", VDbl x); ("problem_type", VStr "fixed")] (empty_db Sub))).
  { apply (@input_ok Sub to_int to_vint to_dbl documented
      [None; Some ("number_groups", VInt 2%Z); Some ("dimension", VInt 2%Z);
       Some ("inner_max_tolerance", VDbl x); Some ("problem_type", VStr "fixed"); None; None; None; None; None; None; None; None]).
    assert (P : forall s, s <> "" -> all_chars (fun c => negb (Ascii.eqb c " "%char)) s = true -> is_token s) by (split; auto).
    repeat apply Forall2_cons; [ | | | | | | | | | | | | |apply Forall2_nil].
    - apply writes_comment.
    - eapply writes_int with (t := "2"); [|split; [discriminate|reflexivity]|auto].
      eapply (@spaced_more "int" 5 ["number_groups"; "2"] "number_groups           2"); [apply P; [discriminate|reflexivity]|].
      eapply (@spaced_more "number_groups" 10 ["2"] "2"); [apply P; [discriminate|reflexivity]|].
      apply (@spaced_one "2" 0). apply P; [discriminate|reflexivity].
    - eapply writes_int with (t := "2"); [|split; [discriminate|reflexivity]|auto].
      eapply (@spaced_more "int" 5 ["dimension"; "2"] "dimension               2"); [apply P; [discriminate|reflexivity]|].
      eapply (@spaced_more "dimension" 14 ["2"] "2"); [apply P; [discriminate|reflexivity]|].
      apply (@spaced_one "2" 0). apply P; [discriminate|reflexivity].
    - eapply writes_dbl with (t := "1e-4"); [|split; [discriminate|reflexivity]|auto].
      eapply (@spaced_more "dbl" 5 ["inner_max_tolerance"; "1e-4"] "inner_max_tolerance     1e-4"); [apply P; [discriminate|reflexivity]|].
      eapply (@spaced_more "inner_max_tolerance" 4 ["1e-4"] "1e-4"); [apply P; [discriminate|reflexivity]|].
      apply (@spaced_one "1e-4" 0). apply P; [discriminate|reflexivity].
    - eapply writes_str with (t := "fixed"); [|split; [discriminate|reflexivity]|split; [discriminate|reflexivity]].
      eapply (@spaced_more "str" 5 ["problem_type"; "fixed"] "problem_type            fixed"); [apply P; [discriminate|reflexivity]|].
      eapply (@spaced_more "problem_type" 11 ["fixed"] "fixed"); [apply P; [discriminate|reflexivity]|].
      apply (@spaced_one "fixed" 0). apply P; [discriminate|reflexivity].
    - apply (@writes_blank Sub to_int to_vint to_dbl 0).
    - apply writes_comment.
    - eapply writes_other with (w := "mesh"); [|simpl; intuition discriminate].
      eapply (@spaced_more "mesh" 0 _ "mesh_xcme 0.0 1.0 2.0"); [apply P; [discriminate|reflexivity]|].
      eapply (@spaced_more "mesh_xcme" 0 _ "0.0 1.0 2.0"); [apply P; [discriminate|reflexivity]|].
      eapply (@spaced_more "0.0" 0 _ "1.0 2.0"); [apply P; [discriminate|reflexivity]|].
      eapply (@spaced_more "1.0" 0 _ "2.0"); [apply P; [discriminate|reflexivity]|].
      apply (@spaced_one "2.0" 0). apply P; [discriminate|reflexivity].
    - eapply writes_other with (w := "mesh"); [|simpl; intuition discriminate].
      eapply (@spaced_more "mesh" 0 _ "mesh_ycme 0.0 2.0 4.0"); [apply P; [discriminate|reflexivity]|].
      eapply (@spaced_more "mesh_ycme" 0 _ "0.0 2.0 4.0"); [apply P; [discriminate|reflexivity]|].
      eapply (@spaced_more "0.0" 0 _ "2.0 4.0"); [apply P; [discriminate|reflexivity]|].
      eapply (@spaced_more "2.0" 0 _ "4.0"); [apply P; [discriminate|reflexivity]|].
      apply (@spaced_one "4.0" 0). apply P; [discriminate|reflexivity].
    - eapply writes_other with (w := "mesh"); [|simpl; intuition discriminate].
      eapply (@spaced_more "mesh" 0 _ "mesh_xfm  10"); [apply P; [discriminate|reflexivity]|].
      eapply (@spaced_more "mesh_xfm" 1 _ "10"); [apply P; [discriminate|reflexivity]|].
      apply (@spaced_one "10" 0). apply P; [discriminate|reflexivity].
    - eapply writes_other with (w := "mesh"); [|simpl; intuition discriminate].
      eapply (@spaced_more "mesh" 0 _ "mesh_yfm  20"); [apply P; [discriminate|reflexivity]|].
      eapply (@spaced_more "mesh_yfm" 1 _ "20"); [apply P; [discriminate|reflexivity]|].
      apply (@spaced_one "20" 0). apply P; [discriminate|reflexivity].
    - apply writes_comment.
    - eapply writes_other with (w := "mesh"); [|simpl; intuition discriminate].
      eapply (@spaced_more "mesh" 0 _ "mesh_mat  0 0 1 0"); [apply P; [discriminate|reflexivity]|].
      eapply (@spaced_more "mesh_mat" 1 _ "0 0 1 0"); [apply P; [discriminate|reflexivity]|].
      eapply (@spaced_more "0" 0 _ "0 1 0"); [apply P; [discriminate|reflexivity]|].
      eapply (@spaced_more "0" 0 _ "1 0"); [apply P; [discriminate|reflexivity]|].
      eapply (@spaced_more "1" 0 _ "0"); [apply P; [discriminate|reflexivity]|].
      apply (@spaced_one "0" 0). apply P; [discriminate|reflexivity]. }
  eexists. split; [exact E|]. split; reflexivity.
Qed.

(** A file of material data with irregular spacing. *)
Example case_material :
  let to_int s := Ok (if String.eqb s "1" then 1%Z else 0%Z) in
  Forall2 (says_material to_int (fun _ => Ok 5%R) 1 2 false)
    ["material  number_materials 1 "; ""; "# data"; "int a 1"; "material sigma_t 0  3 4"]
    [[]; []; []; []; [Set_ FT 0 0 5%R; Set_ FT 0 1 5%R]].
Proof.
  intros to_int.
  assert (P : forall s, s <> "" -> all_chars (fun c => negb (Ascii.eqb c " "%char)) s = true -> is_token s) by (split; auto).
  repeat apply Forall2_cons; [ | | | | |apply Forall2_nil].
  - eapply says_count with (t := "1"); [|reflexivity].
    eapply (@spaced_more "material" 1 _ "number_materials 1 "); [apply P; [discriminate|reflexivity]|].
    eapply (@spaced_more "number_materials" 0 _ "1 "); [apply P; [discriminate|reflexivity]|].
    apply (@spaced_one "1" 1). apply P; [discriminate|reflexivity].
  - apply (@says_blank _ _ 1 2 false 0).
  - apply says_comment.
  - eapply says_other with (w := "int"); [|discriminate].
    eapply (@spaced_more "int" 0 _ "a 1"); [apply P; [discriminate|reflexivity]|].
    eapply (@spaced_more "a" 0 _ "1"); [apply P; [discriminate|reflexivity]|].
    apply (@spaced_one "1" 0). apply P; [discriminate|reflexivity].
  - apply (@says_field to_int (fun _ => Ok 5%R) 1 2 false "material sigma_t 0  3 4" FT "0" 0 ["3"; "4"] [5%R; 5%R]);
      try (auto; fail); try discriminate; try (repeat constructor; fail).
    eapply (@spaced_more "material" 0 _ "sigma_t 0  3 4"); [apply P; [discriminate|reflexivity]|].
    eapply (@spaced_more "sigma_t" 0 _ "0  3 4"); [apply P; [discriminate|reflexivity]|].
    eapply (@spaced_more "0" 1 _ "3 4"); [apply P; [discriminate|reflexivity]|].
    eapply (@spaced_more "3" 0 _ "4"); [apply P; [discriminate|reflexivity]|].
    apply (@spaced_one "4" 0). apply P; [discriminate|reflexivity].
Qed.
