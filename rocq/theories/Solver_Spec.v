(** * Specification vocabulary for linear systems *)
From Verif Require Import Base BaseR Matrix_Model Matrix_Spec Vector_Model Vector_Spec Solver_Model.
Open Scope R_scope.

(** First and one-past-last stored position of row i, stored column and value. *)
Definition row_lo (C : csr) (i : nat) : nat := nth i (c_rows C) 0%nat.
Definition row_hi (C : csr) (i : nat) : nat := nth (S i) (c_rows C) 0%nat.
Definition col_at (C : csr) (p : nat) : Z := nth p (c_cols C) (-1)%Z.
Definition val_at (C : csr) (p : nat) : R := nth p (c_vals C) 0.

(** Entry (i,j): all that row i stores in column j. *)
Definition mentry (C : csr) (i j : nat) : R :=
  rsum (row_hi C i - row_lo C i)
    (fun k => if (col_at C (row_lo C i + k) =? Z.of_nat j)%Z then val_at C (row_lo C i + k) else 0).
(** Component i of A x, of the residual A x - b, and the linear system. *)
Definition ax (n : nat) (C : csr) (x : list R) (i : nat) : R := rsum n (fun j => mentry C i j * cmp x j).
Definition resid (n : nat) (C : csr) (b x : list R) (i : nat) : R := ax n C x i - cmp b i.
Definition solves (n : nat) (C : csr) (b x : list R) : Prop := forall i, (i < n)%nat -> ax n C x i = cmp b i.

(** Every row stores its diagonal entry once. *)
Definition one_diag (n : nat) (C : csr) : Prop :=
  forall i p, (i < n)%nat -> (row_lo C i <= p < row_hi C i)%nat -> col_at C p = Z.of_nat i ->
    nth_error (c_diag C) i = Some (Some p).
Definition diag_nz (n : nat) (C : csr) : Prop := forall i, (i < n)%nat -> mentry C i i <> 0.

(** A usable square system. *)
Definition system (n : nat) (C : csr) (b : list R) : Prop :=
  csr_wf n n C /\ one_diag n C /\ diag_nz n C /\ length b = n.

(** y is the weighted Jacobi update of x. *)
Definition jacobi_update (n : nat) (C : csr) (w : R) (b x y : list R) : Prop :=
  length y = n /\
  forall i, (i < n)%nat ->
    mentry C i i * cmp y i =
    w * (cmp b i - rsum n (fun j => if (j =? i)%nat then 0 else mentry C i j * cmp x j)) + (1 - w) * mentry C i i * cmp x i.
(** y is the weighted Gauss-Seidel update of x: z is the plain one. *)
Definition gs_update (n : nat) (C : csr) (w : R) (b x y : list R) : Prop :=
  length y = n /\ exists z, length z = n /\
  (forall i, (i < n)%nat ->
     rsum n (fun j => mentry C i j * (if (j <=? i)%nat then cmp z j else cmp x j)) = cmp b i) /\
  (forall i, (i < n)%nat -> cmp y i = w * cmp z i + (1 - w) * cmp x i).
(** y is the Richardson update of x for the operator [op] (components). *)
Definition rich_update (n : nat) (op : list R -> nat -> R) (w : R) (b x y : list R) : Prop :=
  length y = n /\ forall i, (i < n)%nat -> cmp y i = cmp x i + w * (cmp b i - op x i).

(** The stopping threshold. *)
Definition threshold (p : params) (r0 : R) : R := Rmax (p_rtol p * r0) (p_atol p).

(** What each reported status must mean for a residual history h, iteration
    count k and limit. *)
Definition verdict (p : params) (m : mon) : Prop :=
  let r k := nth k (m_res m) 0 in
  let k := m_iters m in
  match m_status m with
  | SUCCESS => r k < threshold p (r 0%nat)
  | DIVERGE => p_diverge p = true /\ (1 < k)%nat /\ r (k - 1)%nat < r k /\ threshold p (r 0%nat) <= r k
  | MAXIT => S k = p_maxit p /\ threshold p (r 0%nat) <= r k
  | RUNNING => False
  end.

(** A history: X 0 is the initial guess, X (S k) follows from X k by [step], and
    the recorded norms are those of [rnorm]. *)
Definition history {T} (X : nat -> T) (k : nat) (h : list R) (step : T -> T -> R -> Prop) : Prop :=
  forall j, (j < k)%nat -> step (X j) (X (S j)) (nth (S j) h 0).

(** The factors a preconditioner stores in one matrix: unit lower and upper. *)
Definition low (P : csr) (i j : nat) : R := if (j <? i)%nat then mentry P i j else if (j =? i)%nat then 1 else 0.
Definition upp (P : csr) (i j : nat) : R := if (j <? i)%nat then 0 else mentry P i j.
(** Component i of (L U) x. *)
Definition lux (n : nat) (P : csr) (x : list R) (i : nat) : R :=
  rsum n (fun k => low P i k * rsum n (fun j => upp P k j * cmp x j)).
(** Entry of the product L U. *)
Definition lu (n : nat) (P : csr) (i j : nat) : R := rsum n (fun k => low P i k * upp P k j).

(** [mul] computes the operator with components [op] on n-vectors. *)
Definition is_op (n : nat) (mul : list R -> res (list R)) (op : list R -> nat -> R) : Prop :=
  forall x, length x = n -> mul x = Ok (vec n (op x)).

(** What a complete solve reports: n-vectors X_0, X_1, ... and their norms. *)
Definition report (p : params) (r0 : R) (step : list R -> list R -> R -> Prop) (x x' : list R) (m : mon) : Prop :=
  (1 <= m_iters m <= p_maxit p - 1)%nat /\ length (m_res m) = S (m_iters m) /\ nth 0 (m_res m) 0 = r0 /\
  verdict p m /\
  exists X : nat -> list R, X 0%nat = x /\ X (m_iters m) = x' /\ history X (m_iters m) (m_res m) step.

(** The residual norm each solver monitors. *)
Definition resnorm (p : params) (succ : bool) (n : nat) (C : csr) (b x y : list R) (r : R) : Prop :=
  r = if succ then gnorm (p_norm p) n (fun i => cmp y i - cmp x i) else gnorm (p_norm p) n (resid n C b y).
