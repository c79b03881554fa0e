(** * Reduced order eigenvalue problems: C110. *)
From Verif Require Import Base BaseR Loop Vector_Spec Vector_Proofs Solver_Spec Gmres_Model Gmres_Spec Gmres_Proofs Dense_Model Dense_Spec Rom_Model Rom_Spec Rom_Proofs.
From Coq Require Import Lra.
Set Implicit Arguments. Unset Strict Implicit.
Open Scope nat_scope.

(** The projected matrix acts as U^T A U. *)
Theorem C110_projection : forall U n r A opA c, dwf U -> dm U = n -> dn U = r -> is_op n A opA -> linear n opA -> length c = r ->
  exists Ar y, project A U (dense_new r r 0%R) = Ok Ar /\ dm Ar = r /\ dn Ar = r /\ dmultiply Ar c = Ok y /\ length y = r /\
    forall i, i < r -> cmp y i = along U (opA (lift U c)) i.
Proof.
  intros U n r A opA c W Hn Hr HA LA Lc. destruct (@project_ok U n r A opA W Hn Hr HA) as (Ar & EA & _ & DA & DA' & _).
  destruct (@project_acts U n r A opA W Hn Hr HA LA Ar c EA Lc) as (y & Ey & Ly & Hy). exists Ar, y. auto 7.
Qed.
Print Assumptions C110_projection.

Theorem C110_galerkin : forall n r U A opA B opB eig k sol,
  dwf U -> dm U = n -> dn U = r -> is_op n A opA -> linear n opA -> is_op n B opB -> linear n opB ->
  (forall M Wt kx, eig M Wt = Ok kx -> reduced_pair M Wt (fst kx) (snd kx)) ->
  rom_solve A (Some B) eig U = Ok (k, sol) ->
  exists c, length c = r /\ (forall e, cmp sol e = Rabs (cmp (lift U c) e)) /\
    (one_sign (lift U c) -> exists s, (s = 1 \/ s = -1)%R /\ forall e, cmp sol e = (s * cmp (lift U c) e)%R) /\
    forall i, i < r -> along U (fun e => opB (lift U c) e - k * opA (lift U c) e)%R i = 0%R.
Proof.
  intros n r U A opA B opB eig k sol W Hn Hr HA LA HB LB HE E. destruct (@rom_galerkin n r U A opA B opB eig k sol W Hn Hr HA LA HB LB HE E) as (c & Lc & -> & H).
  exists c. split; auto. split; [intros e; apply sign_abs|]. split; auto. exact (@rom_one_sign (lift U c)).
Qed.
Print Assumptions C110_galerkin.

Theorem C110_galerkin_independent_partial : forall n r U A opA eig k sol,
  dwf U -> dm U = n -> dn U = r -> is_op n A opA -> linear n opA -> unit_basis U ->
  (forall M Wt kx, eig M Wt = Ok kx -> reduced_pair M Wt (fst kx) (snd kx)) ->
  rom_solve A None eig U = Ok (k, sol) ->
  exists c, length c = r /\ (forall e, cmp sol e = Rabs (cmp (lift U c) e)) /\
    (one_sign (lift U c) -> exists s, (s = 1 \/ s = -1)%R /\ forall e, cmp sol e = (s * cmp (lift U c) e)%R) /\
    forall i, i < r -> along U (fun e => opA (lift U c) e - k * cmp (lift U c) e)%R i = 0%R.
Proof.
  intros n r U A opA eig k sol W Hn Hr HA LA O HE E. destruct (@rom_galerkin_independent n r U A opA eig k sol W Hn Hr HA LA HE E) as (c & Lc & -> & _ & H).
  exists c. split; auto. split; [intros e; apply sign_abs|]. split; auto. exact (@rom_one_sign (lift U c)).
Qed.
Print Assumptions C110_galerkin_independent_partial.

Theorem C110_exact : forall n r U A opA B opB k c,
  dwf U -> dm U = n -> dn U = r -> is_op n A opA -> linear n opA -> is_op n B opB -> linear n opB -> length c = r ->
  (forall e, e < n -> opB (lift U c) e = (k * opA (lift U c) e)%R) ->
  exists Ar Br, project A U (dense_new r r 0%R) = Ok Ar /\ project B U (dense_new r r 0%R) = Ok Br /\ reduced_pair Br (Some Ar) k c.
Proof. exact rom_exact. Qed.
Print Assumptions C110_exact.

Theorem C110_exact_independent_partial : forall n r U A opA k c,
  dwf U -> dm U = n -> dn U = r -> is_op n A opA -> linear n opA -> length c = r -> unit_basis U ->
  (forall e, e < n -> opA (lift U c) e = (k * cmp (lift U c) e)%R) ->
  exists Ar, project A U (dense_new r r 0%R) = Ok Ar /\ reduced_pair Ar None k c.
Proof. exact rom_exact_independent. Qed.
Print Assumptions C110_exact_independent_partial.

Theorem C110_file : forall file U, dwf U -> 0 < dn U -> dn U * dm U <= length file ->
  exists U', get_basis file U = Ok U' /\ dwf U' /\ dm U' = dm U /\ dn U' = dn U /\
    forall i j, i < dm U -> j < dn U -> dget U' i j = Ok (nth (i * dn U + j) file 0%R).
Proof.
  intros file U W R0 HF. destruct (@get_basis_ok file U W R0 HF) as (U' & E & W' & D1 & D2 & H). exists U'. split; auto. do 3 (split; auto).
  intros i j Hi Hj. rewrite Dense_Proofs.dget_ok by (auto; lia). rewrite dent_entry, H by auto. reflexivity.
Qed.
Print Assumptions C110_file.

(** A basis that is not of unit length: the eigenvalue is wrong although the eigenvector is
    in the basis. *)
Theorem C110_basis_refuted : exists U A opA k c, dwf U /\ dm U = 2 /\ dn U = 1 /\ is_op 2 A opA /\ linear 2 opA /\ length c = 1 /\
  (exists e, e < 2 /\ cmp (lift U c) e <> 0%R) /\ (forall e, e < 2 -> opA (lift U c) e = (k * cmp (lift U c) e)%R) /\
  forall Ar k' c', project A U (dense_new 1 1 0%R) = Ok Ar -> reduced_pair Ar None k' c' -> cmp c' 0 <> 0%R -> k' <> k.
Proof. exact basis_wrong. Qed.
Print Assumptions C110_basis_refuted.

(** A reduced eigenvector with components of both signs: the flux returned is not a multiple
    of it and not an eigenvector, although the reduced one is. *)
Theorem C110_sign_refuted : exists U A opA B opB eig k sol, dwf U /\ dm U = 2 /\ dn U = 1 /\ is_op 2 A opA /\ linear 2 opA /\ is_op 2 B opB /\ linear 2 opB /\
  (forall M Wt kx, eig M Wt = Ok kx -> reduced_pair M Wt (fst kx) (snd kx)) /\
  rom_solve A (Some B) eig U = Ok (k, sol) /\ (exists c, length c = 1 /\ cmp c 0 <> 0%R /\ forall e, e < 2 -> opB (lift U c) e = (k * opA (lift U c) e)%R) /\
  ~ (forall e, e < 2 -> opB sol e = (k * opA sol e)%R) /\
  ~ (exists s c, length c = 1 /\ forall e, e < 2 -> cmp sol e = (s * cmp (lift U c) e)%R).
Proof. exact sign_wrong. Qed.
Print Assumptions C110_sign_refuted.

(** ** Case: a basis of one flat vector, the operator that averages twice the value. *)
Example C110_case : let U := D 2 1 [1%R; 1%R] in let A := fun v => Ok v in let B := fun v => Ok [(nth 0 v 0 + nth 1 v 0)%R; (nth 0 v 0 + nth 1 v 0)%R] in
  dwf U /\ is_op 2 A cmp /\ is_op 2 B (fun v _ => (nth 0 v 0 + nth 1 v 0)%R) /\
  (forall e, e < 2 -> (nth 0 (lift U [1%R]) 0 + nth 1 (lift U [1%R]) 0 = 2 * cmp (lift U [1%R]) e)%R) /\
  rom_solve A (Some B) one_eig U = Ok (2%R, [1%R; 1%R]) /\ get_basis [1%R; 2%R; 3%R; 4%R; 5%R; 6%R] (dense_new 3 2 0%R) = Ok (D 3 2 [1%R; 3%R; 5%R; 2%R; 4%R; 6%R]).
Proof. exact rom_case. Qed.
