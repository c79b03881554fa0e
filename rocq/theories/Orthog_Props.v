(** * Orthog_Props *)
From Verif Require Import Base BaseR Loop Vector_Model Vector_Spec Orthog_Model Orthog_Spec Orthog_Proofs Orthog_Cases.
From Coq Require Import Lra.
Open Scope R_scope.

(** C52 *)
Theorem C52_inverts :
  forall b,
  shaped b ->
  orthogonal (ob_size b) (S (ob_order b)) (wgt (ob_w b)) (col (ob_basis b)) ->
  exists b', compute_a b = Ok b' /\ ob_order b' = ob_order b /\ ob_size b' = ob_size b /\ ob_w b' = ob_w b /\
    (forall l, (l <= ob_order b)%nat -> exists s, 0 < s /\ forall i, col (ob_basis b') l i = s * col (ob_basis b) l i) /\
    (ob_orthonormal b = true -> orthonormal (ob_size b) (S (ob_order b)) (wgt (ob_w b)) (col (ob_basis b'))) /\
    round_trip b' /\ projects b' /\ (ob_size b = S (ob_order b) -> complete b').
Proof. exact @compute_a_inverts. Qed.
Print Assumptions C52_inverts.

(** C53 *)
Theorem C53_partial :
  forall p orig,
  op_w p = [] -> (op_size p <= length (op_x p))%nat ->
  length (ob_basis orig) = S (op_order p) -> (forall c, In c (ob_basis orig) -> length c = op_size p) ->
  independent (op_size p) (S (op_order p)) (trans_input (op_size p) (op_option p =? 1)%nat (at_ (op_x p)) (col (ob_basis orig))) ->
  exists b, TransformedBasis p orig = Ok b /\
    orthonormal (op_size p) (S (op_order p)) (fun _ => 1) (col (ob_basis b)) /\
    (forall k, (k <= S (op_order p))%nat -> forall f, in_span (op_size p) k (col (ob_basis b)) f <->
      in_span (op_size p) k (trans_input (op_size p) (op_option p =? 1)%nat (at_ (op_x p)) (col (ob_basis orig))) f) /\
    ob_order b = op_order p /\ ob_size b = op_size p /\ round_trip b /\ projects b.
Proof. exact @transformed_orthonormal. Qed.
Print Assumptions C53_partial.
Theorem C53_discrete :
  forall p q (mk : oparams -> res obasis),
  In mk [DLP; DCT; DCP] ->
  op_w p = [] -> (op_size p <= length (op_x p))%nat -> (forall i, (i < op_size p)%nat -> 0 < at_ (op_x p) i) ->
  op_w q = [] -> op_size q = op_size p -> op_order q = op_order p -> (op_order p < op_size p)%nat -> (2 <= op_size p)%nat ->
  (Z.of_nat (op_size p) <= 32767)%Z ->
  exists o b, mk q = Ok o /\ TransformedBasis p o = Ok b /\
    orthonormal (op_size p) (S (op_order p)) (fun _ => 1) (col (ob_basis b)) /\
    in_span (op_size p) 1 (col (ob_basis b)) (at_ (op_x p)) /\ round_trip b /\ projects b.
Proof. exact @transformed_discrete. Qed.
Print Assumptions C53_discrete.
Theorem C53_refuted :
  exists p orig b,
  (op_size p <= length (op_x p))%nat /\ length (ob_basis orig) = S (op_order p) /\ (forall c, In c (ob_basis orig) -> length c = op_size p) /\
  independent (op_size p) (S (op_order p)) (trans_input (op_size p) (op_option p =? 1)%nat (at_ (op_x p)) (col (ob_basis orig))) /\
  TransformedBasis p orig = Ok b /\ ob_w b = Some [1; 2] /\
  ~ orthonormal (op_size p) (S (op_order p)) (fun _ => 1) (col (ob_basis b)) /\
  ~ orthonormal (op_size p) (S (op_order p)) (wgt (ob_w b)) (col (ob_basis b)) /\ ~ round_trip b.
Proof. exact @transformed_weights. Qed.
Print Assumptions C53_refuted.

(** C54 *)
Theorem C54_dlp :
  forall p,
  op_w p = [] -> (op_order p < op_size p)%nat -> (2 <= op_size p)%nat -> (Z.of_nat (op_size p) <= 32767)%Z ->
  exists b, DLP p = Ok b /\
    (forall l, (l <= op_order p)%nat -> discrete_legendre (op_size p) l (col (ob_basis b) l)) /\
    (op_orthonormal p = false -> forall l, (l <= op_order p)%nat -> col (ob_basis b) l 0 = 1) /\
    (op_orthonormal p = true -> orthonormal (op_size p) (S (op_order p)) (fun _ => 1) (col (ob_basis b)) /\
       forall l, (l <= op_order p)%nat -> 0 < col (ob_basis b) l 0).
Proof. exact @DLP_legendre. Qed.
Print Assumptions C54_dlp.
Theorem C54_dcp :
  forall p,
  op_w p = [] -> (op_order p < op_size p)%nat -> (2 <= op_size p)%nat ->
  exists b, DCP p = Ok b /\
    (forall l, (l <= op_order p)%nat -> discrete_legendre (op_size p) l (col (ob_basis b) l)) /\
    (op_orthonormal p = true -> orthonormal (op_size p) (S (op_order p)) (fun _ => 1) (col (ob_basis b))).
Proof. exact @DCP_legendre. Qed.
Print Assumptions C54_dcp.
Theorem C54_clp :
  is_legendre LP /\ forall p, sized p ->
  exists b, CLP p = Ok b /\ forall l i, (l <= op_order p)%nat -> (i < op_size p)%nat ->
    col (ob_basis b) l i = LP l (2 * (at_ (op_x p) i - op_lower p) / (op_upper p - op_lower p) - 1).
Proof. exact @CLP_legendre. Qed.
Print Assumptions C54_clp.
Theorem C54_chebyshev_partial :
  forall p,
  sized p -> op_orthonormal p = false ->
  exists b, ChebyshevU p = Ok b /\ forall l i th, (l <= op_order p)%nat -> (i < op_size p)%nat ->
    let d := ((if op_even_only p then 2 else 1) * l)%nat in (d <= 8)%nat ->
    2 * (at_ (op_x p) i - op_lower p) / (op_upper p - op_lower p) - 1 = cos th ->
    cheb_value d (col (ob_basis b) l i) th.
Proof. exact @ChebyshevU_ok. Qed.
Print Assumptions C54_chebyshev_partial.
Theorem C54_chebyshev_refuted :
  forall order,
  (8 < order)%nat ->
  exists p b, op_order p = order /\ sized p /\ op_orthonormal p = false /\ op_even_only p = false /\ ChebyshevU p = Ok b /\
    exists i th, (i < op_size p)%nat /\ 2 * (at_ (op_x p) i - op_lower p) / (op_upper p - op_lower p) - 1 = cos th /\
      ~ cheb_value order (col (ob_basis b) order i) th.
Proof. exact @ChebyshevU_wrong. Qed.
Print Assumptions C54_chebyshev_refuted.

(** C84 *)
Theorem C84_discrete_partial :
  forall (mk : oparams -> res obasis) p,
  In mk [DLP; DCT; DCP] ->
  op_w p = [] -> (op_order p < op_size p)%nat -> (Z.of_nat (op_size p) <= 32767)%Z ->
  exists b, mk p = Ok b /\ ob_order b = op_order p /\ ob_size b = op_size p /\ round_trip b /\ projects b /\
    (op_size p = S (op_order p) -> complete b).
Proof. exact @discrete_round_trip. Qed.
Print Assumptions C84_discrete_partial.
Theorem C84_jacobi_partial :
  forall p,
  sized p -> (op_order p < 8)%nat ->
  exact_rule (op_size p) (op_x p) (op_qw p) (op_lower p) (op_upper p) (2 * op_order p + 1) ->
  exists b, Jacobi01 p = Ok b /\ ob_order b = op_order p /\ ob_size b = op_size p /\ round_trip b /\ projects b.
Proof. exact @jacobi_round_trip. Qed.
Print Assumptions C84_jacobi_partial.
Theorem C84_clp_partial :
  forall p,
  sized p ->
  exact_rule (op_size p) (op_x p) (op_qw p) (op_lower p) (op_upper p) (2 * op_order p) ->
  exists b, CLP p = Ok b /\ ob_order b = op_order p /\ ob_size b = op_size p /\
    (forall c f0 c0, length c = S (op_order p) -> length c0 = S (op_order p) -> length f0 = op_size p ->
      exists f, inverse b c f0 = Ok f /\
        transform b f c0 = Ok (map (fun v => (op_upper p - op_lower p) / 2 * v) c)) /\
    (op_upper p - op_lower p = 2 -> round_trip b /\ projects b).
Proof. exact @clp_scaled. Qed.
Print Assumptions C84_clp_partial.
Theorem C84_clp_refuted :
  exists p b, sized p /\
  (forall D, (D <= 2 * op_order p)%nat -> exact_rule (op_size p) (op_x p) (op_qw p) (op_lower p) (op_upper p) D) /\
  CLP p = Ok b /\ ~ round_trip b.
Proof. exact @clp_interval. Qed.
Print Assumptions C84_clp_refuted.
Theorem C84_weights_refuted :
  exists p b, (op_order p < op_size p)%nat /\ length (op_w p) = op_size p /\ (forall w, In w (op_w p) -> 0 < w) /\
  DLP p = Ok b /\ ~ round_trip b.
Proof. exact @dlp_weights. Qed.
Print Assumptions C84_weights_refuted.
Theorem C84_ddf_refuted :
  forall p,
  op_w p = [] -> op_size p = S (op_order p) ->
  exists b, DDF p = Ok b /\ forall c f, inverse b c f = UB.
Proof. exact @ddf_inverse. Qed.
Print Assumptions C84_ddf_refuted.

(** C85 *)
Theorem C85_fold_partial :
  forall b l f c0,
  shaped b -> (l <= ob_order b)%nat -> length f = ob_size b -> length c0 = S (ob_order b) ->
  exists c, transform b f c0 = Ok c /\ fold_ b l f = Ok (at_ c l).
Proof. exact @fold_entry. Qed.
Print Assumptions C85_fold_partial.
Theorem C85_overloads_partial :
  forall b c f0 c0,
  round_trip b -> length c = S (ob_order b) -> length c0 = S (ob_order b) -> length f0 = ob_size b ->
  exists f, inverse_std b c f0 = Ok (c, f) /\ inverse b c f0 = Ok f /\
    transform_std b f c0 = Ok (f, c) /\ transform_sp b f c0 = Ok (f, c) /\ transform b f c0 = Ok c.
Proof. exact @overloads. Qed.
Print Assumptions C85_overloads_partial.
Theorem C85_unfold_refuted :
  (exists b row c, shaped b /\ round_trip b /\ (row < ob_size b)%nat /\ length c = S (ob_order b) /\
     unfold_ b row c = UB) /\
  (exists b row c f0 f, shaped b /\ round_trip b /\ (row < ob_size b)%nat /\ inverse b c f0 = Ok f /\
     unfold_ b row c <> Ok (at_ f row) /\ unfold_ b row c = Ok 0).
Proof. exact @unfold_wrong. Qed.
Print Assumptions C85_unfold_refuted.
Theorem C85_inverse_refuted :
  exists b x y, round_trip b /\ length x = S (ob_order b) /\ length y = ob_size b /\
  (exists f, inverse_std b x y = Ok (x, f)) /\ inverse_std b x y <> inverse_sp b x y /\
  exists x', inverse_sp b x y = Ok (x', y) /\ x' <> x.
Proof. exact @inverse_swapped. Qed.
Print Assumptions C85_inverse_refuted.

(** ** Cases *)
(** Two columns orthogonal for the weights 1 and 2 only. *)
Definition case_basis (on : bool) : obasis := mk_obasis 1 2 on (Some [1; 2]) [[1; 1]; [2; -1]] None.
Example C52_case on : shaped (case_basis on) /\ orthogonal 2 2 (wgt (Some [1; 2])) (col [[1; 1]; [2; -1]]) /\
  wdot 2 (wgt None) (col [[1; 1]; [2; -1]] 0) (col [[1; 1]; [2; -1]] 1) = 1.
Proof.
  split; [|split].
  - split; [reflexivity|]. split; [intros c [<-|[<-|[]]]; reflexivity|]. intros w H. injection H as <-. reflexivity.
  - split.
    + intros l k Hl Hk Ne. assert ((l = 0 /\ k = 1) \/ (l = 1 /\ k = 0))%nat as [(-> & ->)|(-> & ->)] by lia; unfold wdot, wgt, col; cbn; ring.
    + intros l Hl. assert (l = 0 \/ l = 1)%nat as [-> | ->] by lia; unfold wdot, wgt, col; cbn; lra.
  - unfold wdot, wgt, col. cbn. ring.
Qed.

(** The parameters of the tests: a decreasing zeroth vector on five points. *)
Definition case_tp (opt : nat) : oparams := mk_oparams 3 5 true false [5; 4; 3; 2; 1] [] [] 0 1 opt [].
Definition case_dp : oparams := mk_oparams 3 5 false false [] [] [] 0 1 0 [].
Example C53_case opt : op_w (case_tp opt) = [] /\ (5 <= length (op_x (case_tp opt)))%nat /\
  (forall i, (i < 5)%nat -> 0 < at_ (op_x (case_tp opt)) i) /\
  exists o b, DCT case_dp = Ok o /\ TransformedBasis (case_tp opt) o = Ok b /\ orthonormal 5 4 (fun _ => 1) (col (ob_basis b)).
Proof.
  assert (P : forall i, (i < 5)%nat -> 0 < at_ (op_x (case_tp opt)) i).
  { intros i Hi. do 5 (destruct i as [|i]; [cbn; lra|]). lia. }
  split; auto. split; [cbn; lia|]. split; auto.
  destruct (@transformed_discrete (case_tp opt) case_dp DCT) as (o & b & E & Eb & On & _); auto; try (cbn; lia).
  - cbn. auto.
  - exists o, b. auto.
Qed.
Example C54_case : op_w case_dp = [] /\ (op_order case_dp < op_size case_dp)%nat /\ (2 <= op_size case_dp)%nat /\
  (Z.of_nat (op_size case_dp) <= 32767)%Z.
Proof. cbn. repeat split; lia. Qed.

(** The two-point Gauss rule. *)
Definition case_gauss : oparams := mk_oparams 1 2 false false [- sqrt (/ 3); sqrt (/ 3)] [1; 1] [] (-1) 1 0 [].
Example C84_case : sized case_gauss /\ exact_rule 2 (op_x case_gauss) (op_qw case_gauss) (-1) 1 (2 * op_order case_gauss + 1) /\
  op_upper case_gauss - op_lower case_gauss = 2.
Proof.
  split; [split; [cbn; lia|]; split; [cbn; lia|cbn; lra]|]. split; [apply gauss2_exact|]. cbn. ring.
Qed.
