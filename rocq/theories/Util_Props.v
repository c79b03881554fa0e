(** * Theorems on the utilities (C29-C34, C62-C65) *)
From Coq Require Import String.
From Verif Require Import Base BaseR Util_Model Util_Spec Util_Proofs.
Open Scope R_scope.

(** C29: after any sequence of put calls *)
Theorem C29_get_last_put :
  forall S h t k,
  getv (put_hist h (empty_db S)) t k = match last_put h t k with Some v => Ok v | None => UB end.
Proof. exact @db_get. Qed.
Print Assumptions C29_get_last_put.
Example C29_case : last_put (S := unit)
  [("a"%string, VInt 1); ("a"%string, VDbl 2); ("a"%string, VInt 3)] TInt "a"%string = Some (VInt 3).
Proof. reflexivity. Qed.
Theorem C29_check_iff_held :
  forall S h k,
  check (put_hist h (empty_db S)) k = true <-> exists t v, last_put h t k = Some v.
Proof. exact @db_check. Qed.
Print Assumptions C29_check_iff_held.
Theorem C29_size_counts_keys :
  forall S (h : list (string * value S)) t,
  exists ks, NoDup ks /\ dbsize (put_hist h (empty_db S)) t = List.length ks /\
    forall k, In k ks <-> exists v, In (k, v) h /\ tag_of v = t.
Proof. exact @db_size. Qed.
Print Assumptions C29_size_counts_keys.

(** C65: a positive check(key) does not license get<T>(key) for another T. *)
Theorem C65_check_licenses_get_refuted :
  forall S,
  exists (h : list (string * value S)) k,
  check (put_hist h (empty_db S)) k = true /\ getv (put_hist h (empty_db S)) TDbl k = UB.
Proof. exact @check_does_not_license_get. Qed.
Print Assumptions C65_check_licenses_get_refuted.
(** What does license it. *)
Theorem C65_check_licenses_get_partial : forall S (h : list (string * value S)) t k,
  (exists v, getv (put_hist h (empty_db S)) t k = Ok v) <-> (exists v, In (k, v) h /\ tag_of v = t).
Proof.
  intros S h t k. rewrite db_get. split.
  - intros (v & H). destruct (last_put h t k) as [x|] eqn:E; [|discriminate]. clear H v.
    revert x E. induction h as [|[q w] r IH]; simpl; intros x; [discriminate|].
    destruct (last_put r t k) eqn:E'.
    + intros _. destruct (IH _ eq_refl) as (v' & Hv & Ht). eauto.
    + destruct (String.eqb_spec k q) as [->|]; simpl; [|discriminate].
      destruct (tag_eqb t (tag_of w)) eqn:T; [|discriminate]. intros _. exists w. split; auto.
      symmetry. apply tag_eqb_eq. auto.
  - intros (v & Hv & Ht). enough (exists x, last_put h t k = Some x) as (x & ->) by eauto.
    induction h as [|[q w] r IH]; [destruct Hv|]. simpl. destruct (last_put r t k) eqn:E; [eauto|].
    destruct Hv as [Hv|Hv].
    + inversion Hv; subst. rewrite String.eqb_refl. 
      rewrite (proj2 (tag_eqb_eq (tag_of v) (tag_of v)) eq_refl). simpl. eauto.
    + destruct (IH Hv) as (x & Hx). discriminate.
Qed.
Print Assumptions C65_check_licenses_get_partial.

(** C30 *)
Theorem C30_first_registration_wins :
  forall C (h : list (string * C)),
  let '(flags, m) := reg_hist [] h in
  (forall k, get_create m k = match first_reg h k with Some c => Ok c | None => Err end) /\
  (forall k, is_registered m k = true <-> exists c, In (k, c) h) /\
  (forall i k c, nth_error h i = Some (k, c) ->
     nth_error flags i = Some (match first_reg (firstn i h) k with Some _ => false | None => true end)).
Proof. exact @factory_first_wins. Qed.
Print Assumptions C30_first_registration_wins.
Example C30_case : reg_hist [] [("a"%string, 1%nat); ("a"%string, 2%nat)] = ([true; false], [("a"%string, 1%nat)]).
Proof. reflexivity. Qed.

(** C31: as ISO C++ the second draw of the default generator is undefined. *)
Theorem C31_random_refuted :
  exists r1, next_iso (random_new 123 19073486328125 0 48) = Ok r1 /\ next_iso r1 = UB.
Proof. exact @random_overflow. Qed.
Print Assumptions C31_random_refuted.
(** With wrapping signed arithmetic, for every seed. *)
Theorem C31_random_partial :
  forall S g c m n,
  (0 < m <= 53)%Z -> (0 < n)%nat ->
  let r := stream n (random_new S g c m) in
  0 <= out r < 1 /\ rS r = (19073486328125 ^ Z.of_nat n * S mod 2 ^ m)%Z.
Proof. exact @random_in_unit. Qed.
Print Assumptions C31_random_partial.
Example C31_case : rS (stream 1 (random_new 123 0 0 48)) = 94239004674127%Z.
Proof. vm_compute. reflexivity. Qed.

(** C32 *)
Theorem C32_range_enumerates :
  forall a b incl,
  let r := range a b incl in
  (forall x, In x r <-> ((Z.min a b <= x <= Z.max a b)%Z /\ (x = b -> incl = true))) /\
  NoDup r /\
  (a < b -> StronglySorted Z.lt r)%Z /\ (b <= a -> StronglySorted Z.gt r)%Z.
Proof. exact @range_spec. Qed.
Print Assumptions C32_range_enumerates.
Example C32_case : range 2 5 false = [2; 3; 4]%Z /\ range 5 2 true = [5; 4; 3; 2]%Z.
Proof. split; reflexivity. Qed.
Theorem C32_linspace :
  forall a b n,
  (2 <= n)%nat ->
  List.length (linspace a b n) = n /\
  nth 0 (linspace a b n) 0 = a /\ nth (n - 1) (linspace a b n) 0 = b /\
  forall k, (S k < n)%nat ->
    nth (S k) (linspace a b n) 0 - nth k (linspace a b n) 0 = (b - a) / INR (n - 1).
Proof. exact @linspace_spec. Qed.
Print Assumptions C32_linspace.
Theorem C32_linspace_center :
  forall a b n,
  (1 <= n)%nat ->
  List.length (linspace_center a b n) = n /\
  forall k, (k < n)%nat ->
    nth k (linspace_center a b n) 0 =
    ((a + INR k * ((b - a) / INR n)) + (a + INR (k + 1) * ((b - a) / INR n))) / 2.
Proof. exact @linspace_center_spec. Qed.
Print Assumptions C32_linspace_center.

(** C33 *)
Theorem C33_residual_L1 :
  forall x y,
  List.length x = List.length y ->
  exists v, norm_residual x y L1 = Ok v /\ 0 <= v /\ (v = 0 <-> x = y) /\
    v = rsum (List.length x) (fun i => Rabs (nth i x 0 - nth i y 0)).
Proof. exact @norm_residual_L1. Qed.
Print Assumptions C33_residual_L1.
Theorem C33_residual_L2 :
  forall x y,
  List.length x = List.length y ->
  exists v, norm_residual x y L2 = Ok v /\ 0 <= v /\ (v = 0 <-> x = y) /\
    v * v = rsum (List.length x) (fun i => (nth i x 0 - nth i y 0) * (nth i x 0 - nth i y 0)).
Proof. exact @norm_residual_L2. Qed.
Print Assumptions C33_residual_L2.
Theorem C33_residual_Linf :
  forall x y,
  List.length x = List.length y -> x <> [] ->
  exists v, norm_residual x y Linf = Ok v /\ 0 <= v /\ (v = 0 <-> x = y) /\
    is_max_of v (map (fun p => Rabs (fst p - snd p)) (combine x y)).
Proof. exact @norm_residual_Linf. Qed.
Print Assumptions C33_residual_Linf.
Theorem C33_norm_L1_L2 :
  forall x,
  (exists v, norm x L1 = Ok v /\ 0 <= v /\ (v = 0 <-> forall a, In a x -> a = 0)) /\
  (exists v, norm x L2 = Ok v /\ 0 <= v /\ (v = 0 <-> forall a, In a x -> a = 0)).
Proof. exact @norm_L1_L2. Qed.
Print Assumptions C33_norm_L1_L2.
Theorem C33_norm_Linf_refuted :
  exists x v, norm x Linf = Ok v /\ ~ is_max_of v (map Rabs x) /\ In (-3) x /\ v = 1.
Proof. exact @norm_Linf_wrong. Qed.
Print Assumptions C33_norm_Linf_refuted.
Theorem C33_norm_Linf_partial :
  forall a r,
  0 <= a ->
  exists v, norm (a :: r) Linf = Ok v /\ is_max_of v (map Rabs (a :: r)).
Proof. exact @norm_Linf_nonneg_head. Qed.
Print Assumptions C33_norm_Linf_partial.

(** C64 *)
Theorem C64_relative_residual_Linf_refuted :
  exists x y v, Forall (fun a => a <> 0) y /\ List.length x = List.length y /\
    norm_relative_residual x y Linf = Ok v /\
    ~ is_max_of v (map (fun p => Rabs ((fst p - snd p) / snd p)) (combine x y)).
Proof. exact @norm_relative_Linf_wrong. Qed.
Print Assumptions C64_relative_residual_Linf_refuted.
Theorem C64_relative_residual_L1_partial :
  forall x y,
  List.length x = List.length y -> Forall (fun a => a <> 0) y ->
  exists v, norm_relative_residual x y L1 = Ok v /\ 0 <= v /\ (v = 0 <-> x = y).
Proof. exact @norm_relative_L1. Qed.
Print Assumptions C64_relative_residual_L1_partial.

(** C34: for any sorting function with std::sort's guarantee *)
Theorem C34_unique_distinct_sorted :
  forall srt v,
  is_sortZ srt ->
  StronglySorted Z.lt (vec_unique srt v) /\ forall x, In x (vec_unique srt v) <-> In x v.
Proof. exact @vec_unique_spec. Qed.
Print Assumptions C34_unique_distinct_sorted.
Example C34_sort_exists : is_sortZ (fold_right insZ []).
Proof. exact sortZ_exists. Qed.
Example C34_case : vec_unique (fold_right insZ []) [3; 1; 3; 2; 1]%Z = [1; 2; 3]%Z.
Proof. reflexivity. Qed.

(** C62: lo = numeric_limits<T>::min(), hi = numeric_limits<T>::max() *)
Theorem C62_vec_max_refuted :
  forall lo,
  0 < lo -> exists l, l <> [] /\ ~ is_max_of (vec_max lo l) l.
Proof. exact @vec_max_wrong. Qed.
Print Assumptions C62_vec_max_refuted.
Theorem C62_vec_max_partial :
  forall lo l,
  l <> [] -> (exists a, In a l /\ lo <= a) -> is_max_of (vec_max lo l) l.
Proof. exact @vec_max_ok. Qed.
Print Assumptions C62_vec_max_partial.
Theorem C62_vec_min :
  forall hi l,
  l <> [] -> (forall a, In a l -> a <= hi) -> is_min_of (vec_min hi l) l.
Proof. exact @vec_min_ok. Qed.
Print Assumptions C62_vec_min.

(** C63 *)
Theorem C63_soft_equiv_relative :
  forall v r p,
  tiny14 <= Rabs r ->
  (soft_equiv v r p = true <-> Rabs (v - r) < p * Rabs r).
Proof. exact @soft_equiv_iff. Qed.
Print Assumptions C63_soft_equiv_relative.
Theorem C63_soft_equiv_refl :
  forall v p,
  0 < p -> soft_equiv v v p = true.
Proof. exact @soft_equiv_refl. Qed.
Print Assumptions C63_soft_equiv_refl.
Theorem C63_soft_equiv_field :
  forall v r p,
  soft_equiv_field v r p = true <->
  (List.length v = List.length r /\
   forall i, (i < List.length v)%nat -> soft_equiv (nth i v 0) (nth i r 0) p = true).
Proof. exact @soft_equiv_field_iff. Qed.
Print Assumptions C63_soft_equiv_field.
