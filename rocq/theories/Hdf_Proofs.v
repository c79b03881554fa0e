(** * Proofs on input databases in files (no model content) *)
From Coq Require Import String Ascii Permutation Lia.
From Verif Require Import Base BaseR Util_Model Util_Proofs Select_Proofs Material_Model Mesh_Model Mesh_Spec Hdf_Model Hdf_Spec.
Open Scope string_scope.
Open Scope nat_scope.
Set Implicit Arguments. Unset Strict Implicit.

Lemma cut_text s : ~ In (ascii_of_nat 0) (list_ascii_of_string s) -> cut s = s.
Proof.
  induction s as [|c r IH]; cbn [cut list_ascii_of_string]; auto. intros H.
  destruct (Nat.eqb_spec (nat_of_ascii c) 0) as [E|E].
  - exfalso. apply H. left. rewrite <- (ascii_nat_embedding c), E. reflexivity.
  - rewrite IH; auto. intros Q. apply H. right. auto.
Qed.
Lemma has_in a s : a < 256 -> has a s = true <-> In (ascii_of_nat a) (list_ascii_of_string s).
Proof.
  intros A. induction s as [|c r IH]; cbn [has list_ascii_of_string In]; [split; [discriminate|tauto]|].
  rewrite Bool.orb_true_iff, IH, Nat.eqb_eq. split; intros [H|H]; auto; left.
  - rewrite <- H. symmetry. apply ascii_nat_embedding.
  - rewrite H. apply nat_ascii_embedding. auto.
Qed.
Lemma plain_link s : link s -> plain s = true.
Proof.
  intros ((N & Z) & D & S). unfold plain.
  apply String.eqb_neq in N. rewrite N. apply String.eqb_neq in D. rewrite D. cbn [negb andb].
  assert (H1 : has 47 s = false).
  { destruct (has 47 s) eqn:E; auto. apply has_in in E; [|lia]. exfalso. apply S. exact E. }
  assert (H2 : has 0 s = false).
  { destruct (has 0 s) eqn:E; auto. apply has_in in E; [|lia]. contradiction. }
  rewrite H1, H2. reflexivity.
Qed.
Lemma text_of_text s : text s -> text_of s = Ok s.
Proof. intros (N & _). unfold text_of. apply String.eqb_neq in N. rewrite N. reflexivity. Qed.

Lemma entries_text V (m : smap V) : keyed text m -> entries m = m.
Proof.
  intros (_ & H). unfold entries. induction m as [|[k v] t IH]; cbn; auto.
  destruct (H (k, v) (or_introl eq_refl)) as (_ & Z). cbn in Z. rewrite cut_text by auto.
  rewrite IH; auto. intros e E. apply H. right. auto.
Qed.

Lemma massign_new V k (v : V) m : ~ In k (map fst m) -> massign k v m = (m ++ [(k, v)])%list.
Proof.
  induction m as [|[k' v'] t IH]; cbn; auto. intros H.
  destruct (String.eqb_spec k k') as [->|N]; [exfalso; apply H; auto|]. rewrite IH; auto.
Qed.
Lemma mfind_none V k (m : smap V) : ~ In k (map fst m) -> mfind k m = None.
Proof.
  induction m as [|[k' v'] t IH]; cbn; auto. intros H.
  destruct (String.eqb_spec k k') as [->|N]; [exfalso; apply H; auto|auto].
Qed.
Lemma mfind_some V k v (m : smap V) : NoDup (map fst m) -> In (k, v) m -> mfind k m = Some v.
Proof.
  induction m as [|[k' v'] t IH]; cbn; [tauto|]. intros N [E|E].
  - inversion E; subst. rewrite String.eqb_refl. auto.
  - inversion N; subst. destruct (String.eqb_spec k k') as [->|D]; auto.
    exfalso. apply H1. apply (in_map fst) in E. auto.
Qed.

(** Reading entries of one type appends them. *)
Lemma read_entries_gen V (inj : V -> value idb) (sel : db idb -> smap V) (set : db idb -> smap V -> db idb) (m : smap V) :
  (forall d k v, put d k (inj v) = set d (massign k v (sel d))) ->
  (forall d l, sel (set d l) = l) -> (forall d l l', set (set d l) l' = set d l') -> (forall d, set d (sel d) = d) ->
  (forall e, In e m -> text (fst e) /\ get_value (inj (snd e)) = Ok (inj (snd e))) ->
  forall d, NoDup (map fst (sel d ++ m)) ->
  read_entries (map (fun e => (fst e, inj (snd e))) m) d = Ok (set d (sel d ++ m)%list).
Proof.
  intros P G SS SG. induction m as [|[k v] t IH]; intros H d N.
  - cbn. rewrite app_nil_r, SG. reflexivity.
  - destruct (H (k, v) (or_introl eq_refl)) as (T & GV). cbn [fst snd] in *.
    unfold read_entries. cbn [map foldM fst snd]. rewrite text_of_text by auto. cbn [bind]. rewrite GV. cbn [bind].
    rewrite P. assert (K : ~ In k (map fst (sel d))).
    { rewrite map_app in N. cbn [map fst] in N. apply NoDup_remove_2 in N. intros Q. apply N. apply in_or_app. auto. }
    rewrite massign_new by auto. fold (read_entries (map (fun e => (fst e, inj (snd e))) t) (set d (sel d ++ [(k, v)])%list)).
    rewrite IH.
    + rewrite G, SS, <- app_assoc. reflexivity.
    + intros e E. apply H. right. auto.
    + rewrite G, <- app_assoc. exact N.
Qed.

Definition wint (d : db idb) l := Build_db l (m_dbl d) (m_vec_int d) (m_vec_dbl d) (m_str d) (m_db d).
Definition wdbl (d : db idb) l := Build_db (m_int d) l (m_vec_int d) (m_vec_dbl d) (m_str d) (m_db d).
Definition wvi (d : db idb) l := Build_db (m_int d) (m_dbl d) l (m_vec_dbl d) (m_str d) (m_db d).
Definition wvd (d : db idb) l := Build_db (m_int d) (m_dbl d) (m_vec_int d) l (m_str d) (m_db d).
Definition wstr (d : db idb) l := Build_db (m_int d) (m_dbl d) (m_vec_int d) (m_vec_dbl d) l (m_db d).
Definition wdb (d : db idb) (l : smap idb) := Build_db (m_int d) (m_dbl d) (m_vec_int d) (m_vec_dbl d) (m_str d) l.

Ltac eta d := destruct d; reflexivity.

Lemma read_data_gen V t (inj : V -> value idb) (mk : smap V -> mdata) sel set kids name (m : smap V) :
  (forall l, as_values t (mk l) = Some (map (fun e => (fst e, inj (snd e))) l)) ->
  (forall d k v, put d k (inj v) = set d (massign k v (sel d))) ->
  (forall d l, sel (set d l) = l) -> (forall d l l', set (set d l) l' = set d l') -> (forall d, set d (sel d) = d) ->
  mfind name kids = Some (Map (mk m)) -> keyed text m ->
  (forall e, In e m -> get_value (inj (snd e)) = Ok (inj (snd e))) ->
  forall d h, sel d = [] -> exists h', read_data t kids name (d, h) = Ok (set d m, h').
Proof.
  intros A P G SS SG F (N & T) GV d h Z. unfold read_data. rewrite F, A.
  assert (E : read_entries (map (fun e => (fst e, inj (snd e))) m) d = Ok (set d m)).
  { rewrite (@read_entries_gen V inj sel set) by (auto; rewrite Z; auto). rewrite Z. reflexivity. }
  destruct m as [|e r] eqn:M.
  - exists (S h). cbn [map fst snd]. rewrite <- Z, SG. reflexivity.
  - cbn [map] in *. cbn [fst snd]. rewrite E. cbn [bind]. eauto.
Qed.

(** Nested databases. *)
Lemma idb_induction (P : idb -> Prop) :
  (forall x, (forall e, In e (m_db x) -> P (snd e)) -> P (IDB x)) -> forall d, P d.
Proof.
  intros H. fix IH 1. intros [x]. apply H. destruct x as [a b c d e l]. cbn [m_db].
  induction l as [|[k y] t IHl]; intros q Q; [destruct Q|]. destruct Q as [Q|Q]; [rewrite <- Q; apply IH|apply IHl; exact Q].
Qed.

Lemma savable_down x k e : savable (IDB x) -> In (k, e) (m_db x) -> savable e.
Proof.
  intros H I p y A. apply (H (k :: p)). cbn [at_].
  destruct (H [] x eq_refl) as (_ & _ & _ & _ & _ & (N & _) & _). rewrite (mfind_some N I). auto.
Qed.

(** Putting nested databases in any order. *)
Lemma put_nested (l : smap idb) names : (forall k, In k names -> In k (map fst l)) ->
  forall d, exists m, foldM (fun d k => match mfind k l with Some e => Ok (put d k (VDb e)) | None => UB end) names d = Ok (wdb d m) /\
  forall k, mfind k m = if in_dec string_dec k names then mfind k l else mfind k (m_db d).
Proof.
  induction names as [|n t IH]; intros H d; cbn [foldM].
  - exists (m_db d). split; [unfold wdb; eta d|]. intros k. destruct (in_dec _ _ _) as [[]|]; auto.
  - destruct (mfind n l) as [e|] eqn:E.
    2:{ exfalso. specialize (H n (or_introl eq_refl)). apply in_map_iff in H. destruct H as ([n' e] & <- & I). cbn in E.
        clear -E I. induction l as [|[a b] r IHl]; cbn in *; [tauto|]. destruct (String.eqb_spec n' a) as [->|D]; [discriminate|].
        destruct I as [I|I]; [congruence|auto]. }
    cbn [bind]. destruct (IH (fun k K => H k (or_intror K)) (put d n (VDb e))) as (m & Em & Hm).
    exists m. split; [rewrite Em; f_equal|]. intros k. rewrite Hm. cbn [put m_db]. rewrite mfind_assign.
    destruct (in_dec string_dec k t) as [I|I], (in_dec string_dec k (n :: t)) as [J|J]; auto.
    + exfalso. apply J. right. auto.
    + destruct J as [->|J]; [|contradiction]. rewrite String.eqb_refl. auto.
    + destruct (String.eqb_spec k n) as [->|]; auto. exfalso. apply J. left. auto.
Qed.

Section Order.
Variable ord : list string -> list string.
Hypothesis any_order : forall l, Permutation (ord l) l.

(** The nested parts as functions of their own. *)
Fixpoint write_dbs (l : list (string * idb)) : res (list (string * node) * nat) :=
  match l with
  | [] => Ok ([], 0)
  | (k, e) :: t => if plain k then do x <- write_node e; do y <- write_dbs t; Ok ((k, fst x) :: fst y, snd x + snd y) else UB
  end.
Fixpoint read_dbs (l : list (string * node)) : res (list (string * idb) * nat) :=
  match l with
  | [] => Ok ([], 0)
  | (k, x) :: t => do a <- read_node ord x; do b <- read_dbs t; Ok ((k, fst a) :: fst b, snd a + snd b)
  end.
Lemma write_node_eq x : write_node (IDB x) =
  do q <- write_dbs (m_db x);
  Ok (Grp [] [("int_data", Map (DInt (entries (m_int x))));
              ("dbl_data", Map (DDbl (entries (m_dbl x))));
              ("str_data", Map (DStr (map (fun e => (cut (fst e), cut (snd e))) (m_str x))));
              ("vec_int_data", Map (DVecInt (entries (m_vec_int x))));
              ("vec_dbl_data", Map (DVecDbl (entries (m_vec_dbl x))));
              ("db_data", Grp [] (fst q))], S (snd q)).
Proof.
  cbn [write_node]. f_equal.
Qed.

Lemma input_round d : savable d ->
  exists n h, write_node d = Ok (n, S h) /\ exists d' h', read_node ord n = Ok (d', h') /\ 0 < h' /\ same_input d d'.
Proof.
  induction d as [x IH] using idb_induction. intros SV.
  destruct (SV [] x eq_refl) as (KI & KD & KS & KVI & KVD & (ND & LK) & TS).
  assert (W : forall l, (forall e, In e l -> In e (m_db x)) -> exists ns h, write_dbs l = Ok (ns, h) /\
     exists l' h', read_dbs ns = Ok (l', h') /\ map fst l' = map fst l /\
       forall k, match mfind k l, mfind k l' with Some a, Some b => same_input a b | None, None => True | _, _ => False end).
  { induction l as [|[k e] t IHt]; intros I.
    - exists [], 0. split; auto. exists [], 0. split; auto. split; auto. intros k. cbn. auto.
    - destruct (IHt (fun e E => I e (or_intror E))) as (ns & h & Ew & l' & h' & Er & Ek & Hs).
      destruct (IH (k, e) (I _ (or_introl eq_refl)) (savable_down SV (I _ (or_introl eq_refl)))) as (n & hn & En & d' & hd & Ed & _ & Sd).
      cbn [snd] in *. exists ((k, n) :: ns), (S hn + h). split.
      + cbn [write_dbs]. rewrite plain_link by (apply (LK (k, e)); auto with datatypes; apply I; left; auto).
        rewrite En. cbn [bind]. rewrite Ew. reflexivity.
      + exists ((k, d') :: l'), (hd + h'). split; [cbn [read_dbs]; rewrite Ed; cbn [bind]; rewrite Er; reflexivity|].
        split; [cbn; rewrite Ek; reflexivity|]. intros q. cbn [mfind]. destruct (String.eqb q k); auto. apply Hs. }
  destruct (W (m_db x) (fun _ E => E)) as (ns & h & Ew & l' & h' & Er & Ek & Hs). clear W.
  rewrite write_node_eq, Ew. cbn [bind fst snd]. eexists. exists h. split; [reflexivity|].
  rewrite !entries_text by auto.
  assert (STR : map (fun e => (cut (fst e), cut (snd e))) (m_str x) = m_str x).
  { destruct KS as (_ & KS). clear -KS TS. induction (m_str x) as [|[k v] t IHt]; cbn; auto.
    destruct (KS (k, v) (or_introl eq_refl)) as (_ & Z1). destruct (TS (k, v) (or_introl eq_refl)) as (_ & Z2). cbn in Z1, Z2.
    rewrite !cut_text by auto. rewrite IHt; auto; intros; [apply KS|apply TS]; right; auto. }
  rewrite STR. clear STR.
  cbn [read_node].
  match goal with |- context [read_data TInt ?k _ _] => set (kids := k) end.
  destruct (@read_data_gen Z TInt VInt DInt (@m_int idb) wint kids "int_data" (m_int x)) with (d := empty_db idb) (h := 0) as (h1 & ->); auto; try (intros []; reflexivity).
  cbn [bind].
  destruct (@read_data_gen R TDbl VDbl DDbl (@m_dbl idb) wdbl kids "dbl_data" (m_dbl x)) with (d := wint (empty_db idb) (m_int x)) (h := h1) as (h2 & ->); auto; try (intros []; reflexivity).
  cbn [bind].
  destruct (@read_data_gen string TStr VStr DStr (@m_str idb) wstr kids "str_data" (m_str x)) with (d := wdbl (wint (empty_db idb) (m_int x)) (m_dbl x)) (h := h2) as (h3 & ->); auto; try (intros []; reflexivity).
  { intros e E. cbn [get_value]. rewrite text_of_text by (apply TS; auto). reflexivity. }
  cbn [bind].
  destruct (@read_data_gen (list Z) TVecInt VVecInt DVecInt (@m_vec_int idb) wvi kids "vec_int_data" (m_vec_int x))
    with (d := wstr (wdbl (wint (empty_db idb) (m_int x)) (m_dbl x)) (m_str x)) (h := h3) as (h4 & ->); auto; try (intros []; reflexivity).
  cbn [bind].
  destruct (@read_data_gen (list R) TVecDbl VVecDbl DVecDbl (@m_vec_dbl idb) wvd kids "vec_dbl_data" (m_vec_dbl x))
    with (d := wvi (wstr (wdbl (wint (empty_db idb) (m_int x)) (m_dbl x)) (m_str x)) (m_vec_int x)) (h := h4) as (h5 & ->); auto; try (intros []; reflexivity).
  cbn [bind].
  match goal with |- context [bind ?e (fun q : option (list (string * idb) * nat) => _)] => replace e with (do r <- read_dbs ns; Ok (Some r)) by reflexivity end.
  rewrite Er. cbn [bind fst snd].
  destruct (@put_nested l' (ord (map fst l'))) with (d := wvd (wvi (wstr (wdbl (wint (empty_db idb) (m_int x)) (m_dbl x)) (m_str x)) (m_vec_int x)) (m_vec_dbl x)) as (m & -> & Hm).
  { intros k K. eapply Permutation_in; [apply any_order|auto]. }
  cbn [bind]. eexists _, _. split; [reflexivity|]. split; [lia|].
  assert (HM : forall k, mfind k m = mfind k l').
  { intros k. rewrite Hm. destruct (in_dec _ _ _) as [I|I]; auto. cbn. symmetry. apply mfind_none. intros Q. apply I.
    eapply Permutation_in; [apply Permutation_sym, any_order|auto]. }
  intros [|k p]; cbn [at_].
  - intros t k T. destruct t; try contradiction; reflexivity.
  - cbn [wdb m_db]. rewrite HM. specialize (Hs k). destruct (mfind k (m_db x)), (mfind k l'); try contradiction; auto.
    apply (Hs p).
Qed.
End Order.
