(** * Proofs on the driver program *)
From Coq Require Import String.
From Verif Require Import Base BaseR Loop Util_Model Mesh_Model Mesh_Spec Mesh_Proofs
  Manager_Model Manager_Spec Manager_Proofs Driver_Model Driver_Spec.
Open Scope string_scope.
Open Scope nat_scope.
Set Implicit Arguments.
Unset Strict Implicit.

(** ** Reading the database *)
Lemma present_found V k (m : smap V) v : mfind k m = Some v -> present k m = true.
Proof. intros H. unfold present. rewrite H. destruct m; [discriminate|auto]. Qed.

Lemma getv_check Sub (d : db Sub) t k v : getv d t k = Ok v -> check d k = true.
Proof.
  unfold check.
  destruct t; simpl; intros H; unfold found in H;
  (destruct (mfind k _) eqn:E; [|discriminate]); apply present_found in E;
  repeat match goal with |- context [if ?c then _ else _] => destruct c eqn:?; auto end; congruence.
Qed.

Lemma get_vd_ok Sub (d : db Sub) k l : has_vd d k l -> get_vd d k = Ok l /\ check d k = true.
Proof. unfold has_vd, get_vd. intros H. split; [rewrite H; auto|eapply getv_check; eauto]. Qed.
Lemma get_vi_ok Sub (d : db Sub) k l : has_vi d k l -> get_vi d k = Ok l /\ check d k = true.
Proof. unfold has_vi, get_vi. intros H. split; [rewrite H; auto|eapply getv_check; eauto]. Qed.
Lemma get_int_ok Sub (d : db Sub) k l : has_int d k l -> get_int d k = Ok l /\ check d k = true.
Proof. unfold has_int, get_int. intros H. split; [rewrite H; auto|eapply getv_check; eauto]. Qed.
Lemma get_dbl_ok Sub (d : db Sub) k l : has_dbl d k l -> get_dbl d k = Ok l /\ check d k = true.
Proof. unfold has_dbl, get_dbl. intros H. split; [rewrite H; auto|eapply getv_check; eauto]. Qed.

Lemma axis_len f e : axis_ok (nats f) e -> (List.length e =? List.length f + 1) = true.
Proof.
  intros (_ & _ & H & _). unfold nats in H. rewrite map_length in H. apply Nat.eqb_eq. auto.
Qed.
Lemma nats_length f : List.length (nats f) = List.length f.
Proof. apply map_length. Qed.

Ltac db_step :=
  cbn [bind insist Z.ltb Z.compare Pos.compare Pos.compare_cont Z.eqb Pos.eqb andb negb].
Ltac db_go := db_step; repeat (match goal with
  | H : check _ _ = _ |- _ => rewrite H
  | H : get_vd _ _ = _ |- _ => rewrite H
  | H : get_vi _ _ = _ |- _ => rewrite H
  | H : get_int _ _ = _ |- _ => rewrite H
  | H : axis_ok (nats _) _ |- _ => rewrite (axis_len H)
  end; db_step).

(** ** The mesh *)
Lemma unit_widths : axis_widths [1] [0%R; 1%R] [1%R].
Proof.
  split; [auto|]. split.
  - intros I x (HI & Hx). simpl in HI. assert (I = 0) by lia. subst I.
    unfold psum in Hx. simpl in Hx. assert (x = 0) by lia. subst x. simpl. field.
  - unfold left_edge. simpl. lra.
Qed.

Section Mesh.
  Variables (Sub : Type) (d : db Sub).

  Lemma mesh_1d xf xc mm :
    has_int d "dimension" 1%Z -> gives_axis d "mesh_xcme" "mesh_xfm" xc xf ->
    has_vi d "mesh_mat_map" mm -> List.length mm = List.length xf ->
    exists m, parse_mesh d = Ok m /\
      described 1 (nats xf) [1] [1] xc [0%R; 1%R] [0%R; 1%R] mm m.
  Proof.
    intros Hd (Hc & Hf & Hx) Hm HL.
    destruct (get_int_ok Hd) as [D1 D2]. destruct (get_vd_ok Hc) as [X1 X2].
    destruct (get_vi_ok Hf) as [F1 F2]. destruct (get_vi_ok Hm) as [M1 M2].
    destruct (@mesh1D_ok (nats xf) xc mm Hx) as (m & E & G & A1 & A2 & A3 & A4 & A5 & A6 & A7 & A8 & A9 & _);
      [rewrite nats_length; auto|].
    exists m. split.
    - unfold parse_mesh, read_x. db_go.
      replace (zlen mm =? zlen xf * 1 * 1)%Z with true by (unfold zlen; rewrite HL; symmetry; apply Z.eqb_eq; lia).
      cbn. exact E.
    - split; [auto|]. split; [auto|]. split; [auto|]. split; [auto|]. split; [auto|].
      rewrite A6, A7. split; [auto|]. split; [apply unit_widths|]. split; [apply unit_widths|]. auto.
  Qed.

  Lemma psum_ones n k : k <= n -> psum (repeat 1 n) k = k.
  Proof.
    induction k as [|k IH]; intros H; [apply psum_0|]. rewrite psum_S, IH by lia.
    rewrite (nth_indep _ 0 1) by (rewrite repeat_length; lia). rewrite nth_repeat. lia.
  Qed.

  (** Fine edges in one dimension. *)
  Lemma mesh_1d_fine xe mm n :
    has_int d "dimension" 1%Z -> check d "mesh_xcme" = false -> has_vd d "mesh_xfme" xe ->
    has_vi d "mesh_mat_map" mm -> 0 < n -> List.length xe = n + 1 -> List.length mm = n ->
    (forall i, i < n -> (nth i xe 0 < nth (S i) xe 0)%R) ->
    exists m, parse_mesh d = Ok m /\ mesh_good m /\ dim m = 1 /\ ncx m = n /\ ncy m = 1 /\ ncz m = 1 /\
      (forall i, i < n -> nth i (mdx m) 0%R = (nth (S i) xe 0 - nth i xe 0)%R) /\
      mdy m = [1%R] /\ mdz m = [1%R] /\ mat m = mm.
  Proof.
    intros Hd Hn Hc Hm Hp Le Lm Hi.
    destruct (get_int_ok Hd) as [D1 D2]. destruct (get_vd_ok Hc) as [X1 X2].
    destruct (get_vi_ok Hm) as [M1 M2].
    assert (Hx : axis_ok (repeat 1 n) xe).
    { split; [destruct n; [lia|discriminate]|]. split; [intros f Hf; apply repeat_spec in Hf; lia|].
      rewrite repeat_length. auto. }
    assert (Ls : list_sum (repeat 1 n) = n) by (rewrite <- psum_all, repeat_length; apply psum_ones; auto).
    destruct (widths_total Hx) as (w & t & E1 & E2 & L & Et & Es & Ep & Ew).
    rewrite Ls in *.
    eexists. split.
    - unfold parse_mesh, read_x. db_go.
      replace (zlen mm =? (zlen xe - 1) * 1 * 1)%Z with true by (unfold zlen; symmetry; apply Z.eqb_eq; lia).
      cbn. unfold mesh1D_fine. replace (List.length xe - 1) with n by lia. rewrite E1, E2. cbn. reflexivity.
    - unfold mesh_good, ncx, ncy, ncz, left_edge.
      cbn [dim xfm yfm zfm mdx mdy mdz twx twy twz mat]. change (list_sum [1]) with 1. rewrite Ls. split.
      { split; [auto|]. split; [auto|]. split; [auto|]. split.
        { intros x [H|[H|H]].
          - revert H. apply in_nth_pos. intros i Hi'. apply Ep. lia.
          - destruct H as [<-|[]]; lra.
          - destruct H as [<-|[]]; lra. }
        split; [lra|]. split; [simpl; lra|]. split; [simpl; lra|]. repeat split; auto; lia. }
      split; [auto|]. split; [auto|]. split; [auto|]. split; [auto|]. split; [|auto].
      intros i Hi'. rewrite (Ew i i).
      + rewrite (nth_indep _ 0 1) by (rewrite repeat_length; lia). rewrite nth_repeat. simpl. field.
      + split; [rewrite repeat_length; auto|]. rewrite !psum_ones by lia. lia.
  Qed.

  Lemma mesh_2d xf yf xc yc mm :
    has_int d "dimension" 2%Z ->
    gives_axis d "mesh_xcme" "mesh_xfm" xc xf -> gives_axis d "mesh_ycme" "mesh_yfm" yc yf ->
    has_vi d "mesh_mat_map" mm -> List.length mm = List.length xf * List.length yf ->
    (List.length xf = List.length yf ->
     exists m, parse_mesh d = Ok m /\ described 2 (nats xf) (nats yf) [1] xc yc [0%R; 1%R] mm m) /\
    (List.length xf <> List.length yf -> parse_mesh d = Err).
  Proof.
    intros Hd (Hc & Hf & Hx) (Hyc & Hyf & Hy) Hm HL.
    destruct (get_int_ok Hd) as [D1 D2]. destruct (get_vd_ok Hc) as [X1 X2].
    destruct (get_vi_ok Hf) as [F1 F2]. destruct (get_vi_ok Hm) as [M1 M2].
    destruct (get_vd_ok Hyc) as [Y1 Y2]. destruct (get_vi_ok Hyf) as [G1 G2].
    assert (Lx : List.length xc = List.length xf + 1) by (apply Nat.eqb_eq, axis_len; auto).
    split; intros Hxy.
    - destruct (@mesh2D_ok (nats xf) (nats yf) xc yc mm Hx Hy) as
        (m & E & G & A1 & A2 & A3 & A4 & A5 & A6 & A7 & A8 & A9 & _); [rewrite !nats_length; auto|].
      exists m. split.
      + unfold parse_mesh, read_x, read_y. db_go.
        replace (List.length xc =? List.length yf + 1) with true by (symmetry; apply Nat.eqb_eq; lia). db_go.
        replace (zlen mm =? zlen xf * zlen yf * 1)%Z with true
          by (unfold zlen; rewrite HL; symmetry; apply Z.eqb_eq; lia).
        cbn. exact E.
      + split; [auto|]. split; [auto|]. split; [auto|]. split; [auto|]. split; [auto|].
        rewrite A7. split; [auto|]. split; [auto|]. split; [apply unit_widths|]. auto.
    - unfold parse_mesh, read_x, read_y. db_go.
      replace (List.length xc =? List.length yf + 1) with false by (symmetry; apply Nat.eqb_neq; lia). reflexivity.
  Qed.

  (** In three dimensions the x counts are not used at all: the mesh has the
      y counts along x and the z counts along y. *)
  Lemma mesh_3d xf yf zf xc yc zc mm :
    has_int d "dimension" 3%Z ->
    gives_axis d "mesh_xcme" "mesh_xfm" xc xf -> gives_axis d "mesh_ycme" "mesh_yfm" yc yf ->
    gives_axis d "mesh_zcme" "mesh_zfm" zc zf ->
    has_vi d "mesh_mat_map" mm -> List.length mm = List.length xf * List.length yf * List.length zf ->
    List.length xf = List.length yf -> List.length yf = List.length zf ->
    exists m, parse_mesh d = Ok m /\ described 3 (nats yf) (nats zf) (nats zf) xc yc zc mm m.
  Proof.
    intros Hd (Hc & Hf & Hx) (Hyc & Hyf & Hy) (Hzc & Hzf & Hz) Hm HL Hxy Hyz.
    destruct (get_int_ok Hd) as [D1 D2]. destruct (get_vd_ok Hc) as [X1 X2].
    destruct (get_vi_ok Hf) as [F1 F2]. destruct (get_vi_ok Hm) as [M1 M2].
    destruct (get_vd_ok Hyc) as [Y1 Y2]. destruct (get_vi_ok Hyf) as [G1 G2].
    destruct (get_vd_ok Hzc) as [Z1 Z2]. destruct (get_vi_ok Hzf) as [I1 I2].
    assert (Lx : List.length xc = List.length xf + 1) by (apply Nat.eqb_eq, axis_len; auto).
    assert (Ax : axis_ok (nats yf) xc).
    { destruct Hx as (A & B & C & D), Hy as (A' & B' & C' & D'). split; [auto|]. split; [auto|].
      rewrite nats_length in *. split; [lia|]. rewrite <- Hxy. auto. }
    assert (Ay : axis_ok (nats zf) yc).
    { destruct Hy as (A & B & C & D), Hz as (A' & B' & C' & D'). split; [auto|]. split; [auto|].
      rewrite nats_length in *. split; [lia|]. rewrite <- Hyz. auto. }
    destruct (@mesh3D_ok (nats yf) (nats zf) (nats zf) xc yc zc mm Ax Ay Hz) as
        (m & E & G & A1 & A2 & A3 & A4 & A5 & A6 & A7 & A8 & A9 & _); [rewrite !nats_length; rewrite HL; congruence|].
    exists m. split.
    - unfold parse_mesh, read_x, read_y, read_z.
      db_go.
      replace (List.length xc =? List.length yf + 1) with true by (symmetry; apply Nat.eqb_eq; lia). db_go.
      replace (zlen mm =? zlen xf * zlen yf * zlen zf)%Z with true
        by (unfold zlen; rewrite HL; symmetry; apply Z.eqb_eq; lia).
      cbn. exact E.
    - unfold described. auto 12.
  Qed.

  (** Fine edges in two or three dimensions are never accepted. *)
  Lemma mesh_fine_23 n m :
    has_int d "dimension" n -> (2 <= n)%Z -> check d "mesh_xcme" = false -> parse_mesh d <> Ok m.
  Proof.
    intros Hd Hn Hc E. destruct (get_int_ok Hd) as [D1 D2].
    unfold parse_mesh in E. rewrite D1, D2 in E. cbn in E.
    apply bind_ok in E as ([[[c xme] xf] nx] & Ex & E).
    unfold read_x in Ex. rewrite Hc in Ex. apply bind_ok in Ex as (? & _ & Ex).
    apply bind_ok in Ex as (? & _ & Ex). injection Ex as <- <- <- <-.
    apply bind_ok in E as ([[yme yf] ny] & _ & E). apply bind_ok in E as ([[zme zf] nz] & _ & E).
    apply bind_ok in E as (? & _ & E). apply bind_ok in E as (? & _ & E). apply bind_ok in E as (? & _ & E).
    replace (n =? 1)%Z with false in E by (symmetry; apply Z.eqb_neq; lia).
    rewrite !andb_false_r in E. discriminate.
  Qed.
End Mesh.
