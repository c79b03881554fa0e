(** * Proofs on the text input parser *)
From Coq Require Import String Ascii.
From Verif Require Import Base BaseR Util_Model Util_Spec Material_Model Mesh_Model Manager_Model Driver_Model
  Driver_Spec Parser_Model Parser_Spec.
Open Scope string_scope.
Open Scope nat_scope.
Set Implicit Arguments.
Unset Strict Implicit.

(** ** Removing double spaces *)
Fixpoint collapse (s : string) : string :=
  match s with
  | EmptyString => ""
  | String c t =>
      match t with
      | EmptyString => s
      | String c2 _ => if (Ascii.eqb c space && Ascii.eqb c2 space)%bool then collapse t else String c (collapse t)
      end
  end.

Lemma once_none s : squeeze_once s = None -> collapse s = s.
Proof.
  induction s as [|c t IH]; [auto|]. simpl. destruct t as [|c2 r]; [auto|].
  destruct (Ascii.eqb c space && Ascii.eqb c2 space)%bool; [discriminate|].
  intros H. f_equal. apply IH. destruct (squeeze_once (String c2 r)); [discriminate|auto].
Qed.
Lemma collapse_nonspace c t : Ascii.eqb c space = false -> collapse (String c t) = String c (collapse t).
Proof. intros H. simpl. destruct t; auto. rewrite H. auto. Qed.

Lemma collapse_head c t : exists u, collapse (String c t) = String c u.
Proof.
  revert c. induction t as [|c2 r IH]; intros c; [exists ""; auto|].
  cbn [collapse]. destruct (Ascii.eqb_spec c space) as [->|]; cbn [andb]; [|eexists; reflexivity].
  destruct (Ascii.eqb_spec c2 space) as [->|]; [apply (IH space)|eexists; reflexivity].
Qed.

Lemma once_some s : forall s', squeeze_once s = Some s' ->
  collapse s' = collapse s /\ S (String.length s') = String.length s.
Proof.
  induction s as [|c t IH]; [discriminate|]. intros s' H. simpl in H.
  destruct t as [|c2 r]; [discriminate|].
  destruct (Ascii.eqb c space && Ascii.eqb c2 space)%bool eqn:E.
  - injection H as <-. apply andb_true_iff in E as [E1 E2].
    apply Ascii.eqb_eq in E1, E2. subst. split; [|reflexivity]. reflexivity.
  - destruct (squeeze_once (String c2 r)) as [u|] eqn:Eu; [|discriminate].
    simpl in H. injection H as <-. destruct (IH u eq_refl) as [A B].
    split; [|simpl; simpl in B; lia].
    (* the first character of u is c2 *)
    assert (Hu : exists v, u = String c2 v).
    { simpl in Eu. destruct r as [|c3 q]; [discriminate|].
      destruct (Ascii.eqb c2 space && Ascii.eqb c3 space)%bool eqn:E2.
      - apply andb_true_iff in E2 as [E2 _]. apply Ascii.eqb_eq in E2. injection Eu as <-. subst. eauto.
      - destruct (squeeze_once (String c3 q)); [|discriminate]. simpl in Eu. injection Eu as <-. eauto. }
    destruct Hu as (v & ->).
    change (collapse (String c (String c2 v))) with
      (if (Ascii.eqb c space && Ascii.eqb c2 space)%bool then collapse (String c2 v) else String c (collapse (String c2 v))).
    change (collapse (String c (String c2 r))) with
      (if (Ascii.eqb c space && Ascii.eqb c2 space)%bool then collapse (String c2 r) else String c (collapse (String c2 r))).
    rewrite E, A. auto.
Qed.

Lemma remove_collapse n : forall s, String.length s <= n -> remove_white n s = collapse s.
Proof.
  induction n as [|n IH]; intros s H.
  - destruct s; [auto|simpl in H; lia].
  - simpl. destruct (squeeze_once s) as [s'|] eqn:E.
    + apply once_some in E as [E1 E2]. rewrite IH by lia. auto.
    + symmetry. apply once_none. auto.
Qed.
Lemma remove_white_collapse s : remove_white_space s = collapse s.
Proof. apply remove_collapse. auto. Qed.

(** ** Tokens *)
Lemma token_cons c t : is_token (String c t) -> Ascii.eqb c space = false /\ (t = "" \/ is_token t).
Proof.
  intros [_ H]. simpl in H. apply andb_true_iff in H as [H1 H2].
  split; [apply negb_true_iff; auto|]. destruct t; [auto|]. right. split; [discriminate|auto].
Qed.

Lemma collapse_token t r : is_token t -> collapse (t ++ r) = t ++ collapse r.
Proof.
  induction t as [|c t IH]; intros H; [destruct H; congruence|].
  destruct (token_cons H) as [H1 H2]. change (String c t ++ r) with (String c (t ++ r)).
  rewrite collapse_nonspace by auto. change (String c t ++ collapse r) with (String c (t ++ collapse r)).
  f_equal. destruct H2 as [->|H2]; [reflexivity|auto].
Qed.

Lemma collapse_spaces_end n : collapse (spaces (S n)) = " ".
Proof. induction n as [|n IH]; [auto|]. simpl in *. auto. Qed.
Lemma collapse_spaces n c r : Ascii.eqb c space = false ->
  collapse (spaces (S n) ++ String c r) = String space (collapse (String c r)).
Proof.
  intros H. induction n as [|n IH].
  - simpl. rewrite H. cbn [andb]. auto.
  - exact IH.
Qed.

Lemma app_nil (s : string) : s ++ "" = s.
Proof. induction s; simpl; congruence. Qed.

(** What is left of a line: tokens separated by single spaces, and at most
    one space at the end. *)
Fixpoint joined (ts : list string) (e : string) : string :=
  match ts with
  | [] => ""
  | [t] => t ++ e
  | t :: ts => t ++ String space (joined ts e)
  end.

Lemma spaced_tokens ts l : spaced ts l -> Forall is_token ts /\ ts <> [].
Proof. induction 1 as [t n H|t n ts l H H1 [IH _]]; split; auto; discriminate. Qed.

Lemma spaced_head ts l : spaced ts l -> exists c r, l = String c r /\ Ascii.eqb c space = false.
Proof.
  intros H. destruct H as [t n H|t n ts l H _]; destruct t as [|c t]; try (destruct H; congruence);
    destruct (token_cons H) as [H1 _]; simpl; eauto.
Qed.

Lemma spaced_joined ts l : spaced ts l ->
  exists e, (e = "" \/ e = " ") /\ remove_white_space l = joined ts e.
Proof.
  rewrite remove_white_collapse. induction 1 as [t n H|t n ts l H H1 (e & He & IH)].
  - rewrite collapse_token by auto. destruct n as [|n].
    + exists "". split; auto.
    + exists " ". split; auto. rewrite collapse_spaces_end. reflexivity.
  - exists e. split; [auto|]. rewrite collapse_token by auto.
    destruct (spaced_head H1) as (c & r & -> & Hc). rewrite collapse_spaces by auto. rewrite IH.
    simpl. destruct ts; [|reflexivity]. inversion H1.
Qed.

Lemma upto_token t r : is_token t -> upto_space (t ++ String space r) = (t, r).
Proof.
  induction t as [|c t IH]; intros H; [destruct H; congruence|].
  destruct (token_cons H) as [H1 H2]. simpl. rewrite H1.
  destruct H2 as [->|H2]; [reflexivity|]. rewrite IH by auto. auto.
Qed.
Lemma upto_end t : is_token t -> upto_space t = (t, "").
Proof.
  induction t as [|c t IH]; intros H; [destruct H; congruence|].
  destruct (token_cons H) as [H1 H2]. simpl. rewrite H1.
  destruct H2 as [->|H2]; [reflexivity|]. rewrite IH by auto. auto.
Qed.

Lemma getline_cons s : s <> "" -> getline s = Some (upto_space s).
Proof. destruct s; [congruence|auto]. Qed.
Lemma token_app_ne t r : is_token t -> t ++ r <> "".
Proof. destruct t; [intros []; congruence|discriminate]. Qed.

Lemma getline_joined t ts e : is_token t -> e = "" \/ e = " " ->
  getline (joined (t :: ts) e) = Some (t, joined ts e).
Proof.
  intros H He. destruct ts as [|t2 ts].
  - simpl. rewrite getline_cons by (apply token_app_ne; auto).
    destruct He as [-> | ->]; [rewrite app_nil, upto_end by auto; auto|].
    change " " with (String space ""). rewrite upto_token by auto. auto.
  - change (joined (t :: t2 :: ts) e) with (t ++ String space (joined (t2 :: ts) e)).
    rewrite getline_cons by (apply token_app_ne; auto). rewrite upto_token by auto. auto.
Qed.
Lemma token_joined t ts e : is_token t -> e = "" \/ e = " " ->
  token (joined (t :: ts) e) = (t, joined ts e).
Proof. intros H He. unfold token. rewrite getline_joined by auto. auto. Qed.

Lemma tokens_joined n : forall ts e, Forall is_token ts -> e = "" \/ e = " " -> List.length ts <= n ->
  tokens n (joined ts e) = ts.
Proof.
  induction n as [|n IH]; intros ts e H He Hl.
  - destruct ts; [auto|simpl in Hl; lia].
  - destruct ts as [|t ts]; [reflexivity|]. inversion H; subst.
    cbn [tokens]. rewrite getline_joined by auto. cbn [fst snd]. f_equal. apply IH; auto. simpl in Hl; lia.
Qed.
Lemma app_length_s (a b : string) : String.length (a ++ b) = String.length a + String.length b.
Proof. induction a; simpl; auto. Qed.
Lemma joined_length ts e : Forall is_token ts -> List.length ts <= String.length (joined ts e).
Proof.
  induction 1 as [|t ts H H1 IH]; [auto|].
  assert (1 <= String.length t) by (destruct t; [destruct H; congruence|simpl; lia]).
  destruct ts as [|t2 ts]; [simpl; rewrite app_length_s; lia|].
  change (joined (t :: t2 :: ts) e) with (t ++ String space (joined (t2 :: ts) e)).
  rewrite app_length_s. simpl in *. lia.
Qed.
Lemma rest_joined ts e : Forall is_token ts -> e = "" \/ e = " " -> rest_tokens (joined ts e) = ts.
Proof. intros. apply tokens_joined; auto. apply joined_length; auto. Qed.

(** The first word of a line and whether it is a comment. *)
Lemma line_split w ts l : spaced (w :: ts) l ->
  exists e, (e = "" \/ e = " ") /\ is_token w /\ Forall is_token ts /\
    getline (remove_white_space l) = Some (w, joined ts e) /\
    is_comment (remove_white_space l) = is_comment w.
Proof.
  intros H. destruct (spaced_joined H) as (e & He & E).
  destruct (spaced_tokens H) as [Ht _]. inversion Ht; subst.
  exists e. split; [auto|]. split; [auto|]. split; [auto|]. rewrite E.
  split; [apply getline_joined; auto|].
  destruct w as [|c w]; [destruct H2; congruence|]. destruct ts; reflexivity.
Qed.

Lemma plain_word t : plain t -> word t = t.
Proof.
  intros [H1 H2]. change (all_chars (fun c => negb (is_white c)) t = true) in H2.
  unfold word. destruct t as [|c t]; [congruence|].
  assert (G : forall s, all_chars (fun c => negb (is_white c)) s = true -> take_word s = s).
  { induction s as [|a s IH]; [auto|]. intros H. cbn [all_chars] in H. apply andb_true_iff in H as [A B].
    cbn [take_word]. apply negb_true_iff in A. rewrite A. f_equal. auto. }
  assert (Hs : skip_white (String c t) = String c t).
  { cbn [all_chars] in H2. apply andb_true_iff in H2 as [A _]. apply negb_true_iff in A.
    cbn [skip_white]. rewrite A. auto. }
  rewrite Hs. apply G. auto.
Qed.

Lemma mapM_forall2 A B (f : A -> res B) l r : Forall2 (fun a b => f a = Ok b) l r -> mapM f l = Ok r.
Proof. induction 1 as [|a b l r H _ IH]; simpl; [auto|]. rewrite H, IH. auto. Qed.

(** ** Input lines *)
Section Input.
  Variables (Sub : Type) (to_int to_vint : string -> res Z) (to_dbl : string -> res R).
  Notation parse_line := (parse_line to_int to_vint to_dbl).

  Lemma comment_line l : is_comment (remove_white_space (String "#"%char l)) = true.
  Proof. rewrite remove_white_collapse, collapse_nonspace by reflexivity. reflexivity. Qed.

  Lemma blank_line n : is_comment (remove_white_space (spaces n)) = false /\
    (getline (remove_white_space (spaces n)) = None \/ getline (remove_white_space (spaces n)) = Some ("", "")).
  Proof.
    rewrite remove_white_collapse. destruct n as [|n]; [split; auto|].
    rewrite collapse_spaces_end. split; auto.
  Qed.

  Lemma line_ok (d : db Sub) l i : writes to_int to_vint to_dbl l i ->
    parse_line d l = Ok (match i with None => d | Some (k, v) => put d k v end).
  Proof.
    intros H. unfold Parser_Model.parse_line.
    destruct H as [l k t z H Hk Ht|l k t x H Hk Ht|l k t H Hk Ht|l k ts zs H Hk Ht|l k ts xs H Hk Ht|l|n|w ts l H Hw].
    1-5: destruct (line_split H) as (e & He & _ & HT & -> & ->); inversion HT; subst;
         rewrite token_joined by auto; cbn [fst snd]; rewrite (plain_word Hk).
    - inversion H3; subst. rewrite token_joined by auto. cbn. rewrite Ht. auto.
    - inversion H3; subst. rewrite token_joined by auto. cbn. rewrite Ht. auto.
    - inversion H3; subst. rewrite token_joined by auto. cbn [fst snd]. rewrite (plain_word Ht). reflexivity.
    - cbn -[mapM rest_tokens]. rewrite rest_joined by auto. rewrite (mapM_forall2 Ht). auto.
    - cbn -[mapM rest_tokens]. rewrite rest_joined by auto. rewrite (mapM_forall2 Ht). auto.
    - rewrite comment_line. auto.
    - destruct (blank_line n) as [-> [-> | ->]]; auto.
    - destruct (line_split H) as (e & He & _ & HT & -> & ->). destruct (is_comment w); [auto|].
      simpl in Hw.
      destruct (String.eqb_spec w "int"); [exfalso; intuition congruence|].
      destruct (String.eqb_spec w "dbl"); [exfalso; intuition congruence|].
      destruct (String.eqb_spec w "str"); [exfalso; intuition congruence|].
      destruct (String.eqb_spec w "vec_int"); [exfalso; intuition congruence|].
      destruct (String.eqb_spec w "vec_dbl"); [exfalso; intuition congruence|]. auto.
  Qed.

  Definition said {A} (l : list (option A)) : list A :=
    flat_map (fun o => match o with Some a => [a] | None => [] end) l.

  Lemma input_ok lines items :
    Forall2 (writes to_int to_vint to_dbl) lines items ->
    parse_input Sub to_int to_vint to_dbl lines = Ok (put_hist (said items) (empty_db Sub)).
  Proof.
    unfold parse_input. generalize (empty_db Sub). intros d H. revert d.
    induction H as [|l i lines items H _ IH]; intros d; [auto|].
    cbn [foldM]. rewrite (line_ok d H). cbn [bind]. rewrite IH.
    destruct i as [[k v]|]; auto.
  Qed.
End Input.

(** ** Material lines *)
Section Material.
  Variables (Sub : Type) (to_int : string -> res Z) (to_dbl : string -> res R) (nmat ngrp : nat) (down : bool).
  Notation says := (says_material to_int to_dbl nmat ngrp down).

  Lemma field_named f : f <> FNSF -> field_of (field_name f) = Some f.
  Proof. destruct f; auto; congruence. Qed.
  Lemma field_plain f : plain (field_name f) /\ is_comment (field_name f) = false /\
    field_name f <> "number_materials" /\ field_name f <> "downscatter".
  Proof. destruct f; repeat split; discriminate. Qed.

  Lemma row_ops x f m v : ng x = List.length v ->
    fold_left (fun x g => set_field x f m g (nth g v 0%R)) (seq 0 (ng x)) x = run_ops x (row f m v).
  Proof.
    intros ->. unfold row, run_ops. generalize (seq 0 (List.length v)). intros l. revert x.
    induction l as [|g l IH]; intros x; simpl; auto.
  Qed.
  Lemma scatter_ops x m g v : ng x = List.length v ->
    fold_left (fun x gp => set_scatter x m g gp (nth gp v 0%R)) (seq 0 (ng x)) x = run_ops x (scatter_row m g v).
  Proof.
    intros ->. unfold scatter_row, run_ops. generalize (seq 0 (List.length v)). intros l. revert x.
    induction l as [|k l IH]; intros x; simpl; auto.
  Qed.

  Lemma range_ok m n : m < n -> ((0 <=? Z.of_nat m) && (Z.of_nat m <? Z.of_nat n))%Z = true.
  Proof. intros H. apply andb_true_iff. split; [apply Z.leb_le|apply Z.ltb_lt]; lia. Qed.

  Lemma material_line_ok x l ops : says l ops -> ng x = ngrp -> nm x = nmat ->
    material_line to_int to_dbl (Z.of_nat ngrp) x l = Ok (run_ops x ops).
  Proof.
    intros H Hg Hm. unfold material_line.
    destruct H as [l f tm m ts v Hf H Et Hmm Lv Hv|l tm m tg g ts v H Et Eg Hmm Hgg Lv Hv|l t H Et|l t z H Et Hz|l|n|w ts l H Hw].
    - destruct (line_split H) as (e & He & _ & HT & -> & ->). inversion HT as [|? ? T1 HT1]; subst.
      inversion HT1 as [|? ? T2 HT2]; subst.
      cbn [is_comment]. change (Ascii.eqb "m" "#") with false. cbv iota.
      change (String.eqb "material" "material") with true. cbv iota.
      rewrite token_joined by auto. cbn [fst snd]. rewrite (plain_word (proj1 (field_plain f))).
      rewrite field_named by auto. rewrite token_joined by auto. cbn [fst snd]. rewrite Et. cbn [bind].
      rewrite rest_joined by auto. rewrite (mapM_forall2 Hv). cbn [bind]. unfold zlen, insist.
      rewrite Z.eqb_refl. cbn [bind]. unfold set_row. rewrite range_ok by auto. rewrite Nat2Z.id.
      rewrite row_ops; auto.
    - destruct (line_split H) as (e & He & _ & HT & -> & ->). inversion HT as [|? ? T1 HT1]; subst.
      inversion HT1 as [|? ? T2 HT2]; subst. inversion HT2 as [|? ? T3 HT3]; subst.
      cbn [is_comment]. change (Ascii.eqb "m" "#") with false. cbv iota.
      change (String.eqb "material" "material") with true. cbv iota.
      rewrite token_joined by auto. cbn [fst snd]. change (word "sigma_s") with "sigma_s".
      change (field_of "sigma_s") with (@None field). cbv iota. change (String.eqb "sigma_s" "sigma_s") with true. cbv iota.
      rewrite token_joined by auto. cbn [fst snd]. rewrite Et. cbn [bind].
      rewrite token_joined by auto. cbn [fst snd]. rewrite Eg. cbn [bind].
      rewrite rest_joined by auto. rewrite (mapM_forall2 Hv). cbn [bind]. unfold zlen, insist.
      rewrite Z.eqb_refl. cbn [bind]. unfold set_scatter_row. rewrite range_ok by auto. cbn [andb].
      rewrite Hg. rewrite range_ok by auto. rewrite !Nat2Z.id. rewrite <- Hg. rewrite scatter_ops; auto.
    - destruct (line_split H) as (e & He & _ & HT & -> & ->). inversion HT; subst.
      cbn [is_comment]. change (Ascii.eqb "m" "#") with false. cbv iota.
      rewrite token_joined by auto. reflexivity.
    - destruct (line_split H) as (e & He & _ & HT & -> & ->). inversion HT; subst.
      cbn [is_comment]. change (Ascii.eqb "m" "#") with false. cbv iota.
      rewrite token_joined by auto. reflexivity.
    - rewrite comment_line. auto.
    - destruct (blank_line n) as [-> [-> | ->]]; auto.
    - destruct (line_split H) as (e & He & _ & HT & -> & ->). destruct (is_comment w); [auto|].
      destruct (String.eqb_spec w "material"); [contradiction|auto].
  Qed.

  Lemma count_line_ok st l ops : says l ops ->
    exists st', count_line to_int st l = Ok st' /\
      ((exists t, spaced ["material"; "number_materials"; t] l) -> fst st' = Z.of_nat nmat) /\
      ((exists t, spaced ["material"; "downscatter"; t] l) -> snd st' = down) /\
      (fst st' = fst st \/ fst st' = Z.of_nat nmat) /\ (snd st' = snd st \/ snd st' = down).
  Proof.
    intros H. unfold count_line.
    assert (Two : forall w2 ts e, Forall is_token (w2 :: ts) -> e = "" \/ e = " " -> plain w2 ->
              word (fst (token (joined (w2 :: ts) e))) = w2).
    { intros w2 ts e HT He Hp. inversion HT; subst. rewrite token_joined by auto. apply plain_word; auto. }
    assert (Key : forall w2 ts t w3, spaced ("material" :: w2 :: ts) l -> plain w2 -> plain w3 -> spaced ["material"; w3; t] l -> w2 = w3).
    { intros w2 ts t w3 A B Bp C. destruct (line_split A) as (e & He & _ & HA & EA & _).
      destruct (line_split C) as (e' & He' & _ & HC & EC & _). rewrite EA in EC.
      assert (EC' : joined (w2 :: ts) e = joined [w3; t] e') by congruence.
      rewrite <- (Two w2 ts e HA He B), EC'. apply Two; auto. }
    assert (First : forall w ts t w3, spaced (w :: ts) l -> spaced ["material"; w3; t] l -> w = "material").
    { intros w ts t w3 A C. destruct (line_split A) as (e & He & _ & HA & EA & _).
      destruct (line_split C) as (e' & He' & _ & HC & EC & _). congruence. }
    assert (PN : plain "number_materials") by (split; [discriminate|reflexivity]).
    assert (PD : plain "downscatter") by (split; [discriminate|reflexivity]).
    assert (PS : plain "sigma_s") by (split; [discriminate|reflexivity]).
    destruct H as [l f tm m ts v Hf H Et Hmm Lv Hv|l tm m tg g ts v H Et Eg Hmm Hgg Lv Hv|l t H Et|l t z H Et Hz|l|n|w ts l H Hw].
    - pose proof (field_plain f) as (P1 & _ & P3 & P4).
      exists st. split.
      { destruct (line_split H) as (e & He & _ & HT & -> & ->). inversion HT; subst.
        cbn [is_comment]. change (Ascii.eqb "m" "#") with false. cbv iota.
        rewrite token_joined by auto. cbn [fst snd]. rewrite (plain_word P1). destruct f; reflexivity. }
      split; [intros (t & Ht); exfalso; apply P3; eapply Key; eauto|].
      split; [intros (t & Ht); exfalso; apply P4; eapply Key; eauto|]. auto.
    - exists st. split.
      { destruct (line_split H) as (e & He & _ & HT & -> & ->). inversion HT; subst.
        cbn [is_comment]. change (Ascii.eqb "m" "#") with false. cbv iota.
        rewrite token_joined by auto. reflexivity. }
      split; [intros (t & Ht); exfalso; assert ("sigma_s" = "number_materials") by (eapply Key; eauto); discriminate|].
      split; [intros (t & Ht); exfalso; assert ("sigma_s" = "downscatter") by (eapply Key; eauto); discriminate|]. auto.
    - exists (Z.of_nat nmat, snd st). split.
      { destruct (line_split H) as (e & He & _ & HT & -> & ->). inversion HT as [|? ? T1 HT1]; subst.
        inversion HT1; subst. cbn [is_comment]. change (Ascii.eqb "m" "#") with false. cbv iota.
        rewrite token_joined by auto. cbn [fst snd]. rewrite token_joined by auto. cbn -[joined]. rewrite Et. reflexivity. }
      split; [auto|]. split; [intros (t' & Ht); exfalso; assert ("number_materials" = "downscatter") by (eapply Key; eauto); discriminate|]. auto.
    - exists (fst st, down). split.
      { destruct (line_split H) as (e & He & _ & HT & -> & ->). inversion HT as [|? ? T1 HT1]; subst.
        inversion HT1; subst. cbn [is_comment]. change (Ascii.eqb "m" "#") with false. cbv iota.
        rewrite token_joined by auto. cbn [fst snd]. rewrite token_joined by auto. cbn -[joined Z.eqb]. rewrite Et. cbn [bind].
        do 2 f_equal. destruct (Z.eqb_spec z 0); destruct down; auto; intuition congruence. }
      split; [intros (t' & Ht); exfalso; assert ("downscatter" = "number_materials") by (eapply Key; eauto); discriminate|]. auto.
    - exists st. rewrite comment_line. split; [auto|].
      split; [intros (t & Ht)|split; [intros (t & Ht)|auto]];
        apply line_split in Ht as (? & _ & _ & _ & _ & Hc); rewrite comment_line in Hc; discriminate.
    - exists st. split; [destruct (blank_line n) as [-> [-> | ->]]; auto|].
      split; [intros (t & Ht)|split; [intros (t & Ht)|auto]];
        apply line_split in Ht as (? & _ & _ & _ & Hc & _);
        destruct (blank_line n) as [_ [E|E]]; rewrite E in Hc; discriminate.
    - exists st. split.
      { destruct (line_split H) as (e & He & _ & HT & -> & ->). destruct (is_comment w); [auto|].
        destruct (String.eqb_spec w "material"); [contradiction|auto]. }
      split; [intros (t & Ht); exfalso; eauto|]. split; [intros (t & Ht); exfalso; eauto|]. auto.
  Qed.

  Lemma count_ok lines opss : Forall2 says lines opss -> forall st,
    exists st', foldM (count_line to_int) lines st = Ok st' /\
      (fst st = Z.of_nat nmat \/ Exists (fun l => exists t, spaced ["material"; "number_materials"; t] l) lines ->
       fst st' = Z.of_nat nmat) /\
      (snd st = down \/ Exists (fun l => exists t, spaced ["material"; "downscatter"; t] l) lines -> snd st' = down).
  Proof.
    induction 1 as [|l ops lines opss H _ IH]; intros st.
    - exists st. split; [auto|]. split; (intros [|E]; [auto|inversion E]).
    - destruct (count_line_ok st H) as (st1 & E1 & A & B & C & D).
      destruct (IH st1) as (st' & E2 & F1 & F2).
      exists st'. split; [simpl; rewrite E1; exact E2|]. split.
      + intros [E|E]; [apply F1; left; destruct C; congruence|].
        inversion E; subst; [apply F1; left; auto|apply F1; auto].
      + intros [E|E]; [apply F2; left; destruct D; congruence|].
        inversion E; subst; [apply F2; left; auto|apply F2; auto].
  Qed.

  Lemma step_size x o : ng (Material_Model.step x o) = ng x /\ nm (Material_Model.step x o) = nm x.
  Proof.
    destruct o; simpl; auto. unfold set_downscatter. cbv zeta. destruct (fin x); auto.
  Qed.
  Lemma run_size ops : forall x, ng (run_ops x ops) = ng x /\ nm (run_ops x ops) = nm x.
  Proof.
    unfold run_ops. induction ops as [|o ops IH]; intros x; [auto|]. simpl.
    destruct (IH (Material_Model.step x o)) as [-> ->]. apply step_size.
  Qed.

  Lemma materials_ok lines opss : Forall2 says lines opss -> forall x, ng x = ngrp -> nm x = nmat ->
    foldM (material_line to_int to_dbl (Z.of_nat ngrp)) lines x = Ok (run_ops x (List.concat opss)).
  Proof.
    induction 1 as [|l ops lines opss H _ IH]; intros x Hg Hm; [auto|].
    cbn [foldM]. rewrite (material_line_ok H Hg Hm). cbn [bind].
    rewrite IH; [|rewrite (proj1 (run_size ops x)); auto|rewrite (proj2 (run_size ops x)); auto].
    simpl. unfold run_ops. rewrite fold_left_app. auto.
  Qed.

  Lemma material_ok (d : db Sub) lines opss :
    has_int d "number_groups" (Z.of_nat ngrp) ->
    Forall2 says lines opss ->
    Exists (fun l => exists t, spaced ["material"; "number_materials"; t] l) lines ->
    (down = true -> Exists (fun l => exists t, spaced ["material"; "downscatter"; t] l) lines) ->
    parse_material to_int to_dbl d lines =
      Ok (run_ops (material_new nmat ngrp) (SetDown down false :: List.concat opss ++ [Finalize])%list).
  Proof.
    intros Hd H Hc Hn. unfold parse_material, get_int. rewrite Hd. cbn [bind].
    destruct (count_ok H (0%Z, false)) as ([c1 c2] & E & A & B).
    rewrite E. cbn [bind fst snd] in *. rewrite A by auto.
    replace c2 with down; [|symmetry; apply B; destruct down; auto].
    rewrite !Nat2Z.id. rewrite (materials_ok H) by (destruct down; reflexivity).
    cbn [bind]. unfold run_ops. simpl. rewrite fold_left_app. reflexivity.
  Qed.
End Material.
