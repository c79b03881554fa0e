(** * Proofs on rasters (no model content) *)
From Verif Require Import Base BaseR Loop Util_Model Util_Proofs Mesh_Model Mesh_Spec Mesh_Proofs Csg_Model Picture_Model.
Open Scope nat_scope.
Set Implicit Arguments. Unset Strict Implicit.

Lemma idx_div p i r : i < p -> (i + r * p) / p = r.
Proof. intros H. rewrite Nat.div_add by lia. rewrite Nat.div_small by lia. lia. Qed.
Lemma idx_mod p i r : i < p -> (i + r * p) mod p = i.
Proof. intros H. rewrite Nat.mod_add by lia. apply Nat.mod_small. lia. Qed.

Lemma fill_square p row find xs ys (x y : nat -> R) (G : nat -> nat -> option nat) :
  (forall j, j < p -> row j < p) ->
  (forall i, i < p -> rd xs i = Ok (x i)) -> (forall j, j < p -> rd ys j = Ok (y j)) ->
  (forall i j, i < p -> j < p -> find (x i) (y j) = Ok (G i (row j))) ->
  (forall r, r < p -> exists j, j < p /\ row j = r) ->
  exists c, fill p p row find xs ys = Ok c /\ List.length c = p * p /\
    forall i r, i < p -> r < p -> nth_error c (i + r * p) = Some (G i r).
Proof.
  intros HR HX HY HF HS.
  set (F := fun k v => v = G (k mod p) (k / p)).
  destruct (@for_holds _ (p * p) F (fun j k => k / p = row j) (fun _ => False) 0 p (repeat (Some 0) (p * p))
    (fun j c => for_ 0 p c (fun i c => do x <- rd xs i; do y <- rd ys j; do v <- find x y; wr c (i + row j * p) v)))
    as (c & E & L & H).
  - lia.
  - intros j D a Hj HA.
    destruct (@for_holds _ (p * p) F (fun i k => k = i + row j * p) D 0 p a
       (fun i c => do x <- rd xs i; do y <- rd ys j; do v <- find x y; wr c (i + row j * p) v)) as (a' & E' & HA').
    + lia.
    + intros i D' b Hi HB. rewrite HX, HY by lia. cbn [bind]. rewrite HF by lia. cbn [bind].
      apply holds_wr; auto.
      * pose proof (HR j ltac:(lia)). nia.
      * unfold F. rewrite idx_mod, idx_div by lia. reflexivity.
    + exact HA.
    + exists a'. split; auto. eapply holds_weaken; [exact HA'|]. cbn. intros k Hk [HD|HK]; [auto|].
      right. exists (k mod p). assert (p <> 0) by lia. split; [split; [lia|apply Nat.mod_upper_bound; auto]|].
      rewrite <- HK. pose proof (Nat.div_mod k p ltac:(auto)). lia.
  - apply holds_none. apply repeat_length.
  - exists c. split; [exact E|]. split; [exact L|]. intros i r Hi Hr.
    destruct (HS r Hr) as (j & Hj & Ej).
    destruct (H (i + r * p)) as (v & Ev & Fv).
    + nia.
    + right. exists j. split; [lia|]. rewrite idx_div by lia. auto.
    + rewrite Ev, Fv, idx_mod, idx_div by lia. reflexivity.
Qed.

(** ** Pictures that are not square *)
Definition kept {A} (n : nat) (r : res (list A)) : Prop :=
  match r with Ok c => List.length c = n | UB => True | Err => False end.

Lemma kept_for A n (body : nat -> list A -> res (list A)) lo hi s :
  (forall i c, List.length c = n -> kept n (body i c)) -> List.length s = n -> kept n (for_ lo hi s body).
Proof.
  intros HB. unfold for_. generalize (seq lo (hi - lo)). intros l. revert s.
  induction l as [|a l IH]; intros s L; cbn [foldM]; [exact L|].
  pose proof (HB a s L) as K. destruct (body a s) as [c| |]; cbn [bind kept] in *; auto.
Qed.

Lemma for_ub A (body : nat -> A -> res A) lo hi s : lo < hi -> body lo s = UB -> for_ lo hi s body = UB.
Proof.
  intros H E. unfold for_. replace (hi - lo) with (S (hi - lo - 1)) by lia. cbn [seq foldM]. rewrite E. reflexivity.
Qed.

Lemma wr_ub A (l : list A) n x : List.length l <= n -> wr l n x = UB.
Proof. intros H. unfold wr. rewrite (proj2 (Nat.ltb_ge n (List.length l)) H). reflexivity. Qed.
Lemma wr_kept A (l : list A) k n x : List.length l = k -> kept k (wr l n x).
Proof. intros H. unfold wr. destruct (n <? List.length l); cbn; auto. rewrite upd_length. auto. Qed.

(** A row written beyond the array. *)
Lemma fill_tall nx ny row find xs ys (x y : nat -> R) (G : nat -> nat -> option nat) j0 :
  0 < nx -> j0 < ny -> nx <= row j0 ->
  (forall i, i < nx -> rd xs i = Ok (x i)) -> (forall j, j < ny -> rd ys j = Ok (y j)) ->
  (forall i j, i < nx -> j < ny -> find (x i) (y j) = Ok (G i j)) ->
  fill nx ny row find xs ys = UB.
Proof.
  intros Hx Hj Hr HX HY HF. unfold fill.
  set (body := fun j c => for_ 0 nx c (fun i c => do x <- rd xs i; do y <- rd ys j; do v <- find x y; wr c (i + row j * ny) v)).
  assert (B : forall j c, j < ny -> List.length c = nx * ny -> kept (nx * ny) (body j c)).
  { intros j c Hj' L. unfold body.
    assert (Q : forall m c, m <= nx -> List.length c = nx * ny ->
      kept (nx * ny) (for_ 0 m c (fun i c => do x <- rd xs i; do y <- rd ys j; do v <- find x y; wr c (i + row j * ny) v))).
    { induction m as [|m IH]; intros c' Hm L'; [unfold for_; cbn; exact L'|].
      rewrite for_S by lia. pose proof (IH c' ltac:(lia) L') as K.
      destruct (for_ 0 m c' _) as [c2| |]; cbn [bind kept] in *; auto.
      rewrite HX, HY by lia. cbn [bind]. rewrite HF by lia. cbn [bind]. apply wr_kept. auto. }
    apply Q; auto. }
  assert (U : forall c, List.length c = nx * ny -> body j0 c = UB).
  { intros c L. unfold body. apply for_ub; auto. rewrite HX, HY by lia. cbn [bind]. rewrite HF by lia. cbn [bind].
    apply wr_ub. rewrite L. nia. }
  assert (Q : forall m, m <= ny -> kept (nx * ny) (for_ 0 m (repeat (Some 0) (nx * ny)) body)
    /\ (j0 < m -> for_ 0 m (repeat (Some 0) (nx * ny)) body = UB)).
  { induction m as [|m IH]; intros Hm; [split; [unfold for_; cbn; apply repeat_length|lia]|].
    rewrite for_S by lia. destruct (IH ltac:(lia)) as [K1 K2].
    destruct (for_ 0 m _ body) as [c| |] eqn:E; cbn [bind kept] in *; try tauto.
    split; [apply B; auto; lia|]. intros H. assert (j0 = m \/ j0 < m) as [<-|H'] by lia; [apply U; auto|].
    specialize (K2 H'). discriminate. }
  apply (Q ny); auto.
Qed.

(** The last pixel of a wide picture is never written. *)
Lemma fill_wide nx ny row find xs ys (x y : nat -> R) (G : nat -> nat -> option nat) :
  2 <= ny -> ny < nx -> (forall j, j < ny -> row j < ny) ->
  (forall i, i < nx -> rd xs i = Ok (x i)) -> (forall j, j < ny -> rd ys j = Ok (y j)) ->
  (forall i j, i < nx -> j < ny -> find (x i) (y j) = Ok (G i j)) ->
  exists c, fill nx ny row find xs ys = Ok c /\ List.length c = nx * ny /\
    nth_error c (nx - 1 + (ny - 1) * nx) = Some (Some 0).
Proof.
  intros Hy Hx HR HX HY HF. unfold fill.
  set (P := fun (_ : nat) (c : list (option nat)) => List.length c = nx * ny /\ nth_error c (nx - 1 + (ny - 1) * nx) = Some (Some 0)).
  destruct (@for_inv _ P 0 ny (repeat (Some 0) (nx * ny)) (fun j c => for_ 0 nx c (fun i c =>
     do x <- rd xs i; do y <- rd ys j; do v <- find x y; wr c (i + row j * ny) v))) as (c & E & HP).
  - lia.
  - split; [apply repeat_length|]. apply nth_error_repeat. nia.
  - intros j s Hj HP.
    destruct (@for_inv _ P 0 nx s (fun i c =>
       do x <- rd xs i; do y <- rd ys j; do v <- find x y; wr c (i + row j * ny) v)) as (c & E & HP'); auto; [lia| |eauto].
    intros i c Hi [L K]. rewrite HX, HY by lia. cbn [bind]. rewrite HF by lia. cbn [bind].
    pose proof (HR j ltac:(lia)) as R1.
    unfold wr. rewrite (proj2 (Nat.ltb_lt _ _)) by (rewrite L; nia).
    eexists. split; [reflexivity|]. split; [rewrite upd_length; auto|].
    rewrite nth_error_upd_neq; auto. nia.
  - exists c. split; auto.
Qed.
