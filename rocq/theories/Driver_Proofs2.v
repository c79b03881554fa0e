(** * Proofs on the driver program: sources, execution and witnesses *)
From Coq Require Import String.
From Verif Require Import Base BaseR Loop Util_Model Mesh_Model Mesh_Spec Mesh_Proofs
  Manager_Model Manager_Spec Manager_Proofs Driver_Model Driver_Spec Driver_Proofs.
Open Scope string_scope.
Open Scope nat_scope.
Set Implicit Arguments.
Unset Strict Implicit.

Section Table.
  Variables (ng : nat) (v : list R).
  Let ns := List.length v / ng.
  (** Rows before [n] are filled, and the first [g] entries of row [n]. *)
  Let filled (n g : nat) (s : list (list R) * nat) : Prop :=
    List.length (fst s) = ns /\ (forall r, r < ns -> List.length (nth r (fst s) []) = ng) /\
    snd s = n * ng + g /\
    forall r c, r < ns -> c < ng -> r * ng + c < n * ng + g ->
      nth c (nth r (fst s) []) 0%R = nth (r * ng + c) v 0%R.

  Lemma table_ok : 0 < ng ->
    exists t, spectra_table ng v = Ok t /\ List.length t = ns /\
      forall r, r < ns -> List.length (nth r t []) = ng /\
        forall c, c < ng -> nth c (nth r t []) 0%R = nth (r * ng + c) v 0%R.
  Proof.
    intros Hp. unfold spectra_table. destruct (ng =? 0) eqn:E0; [apply Nat.eqb_eq in E0; lia|].
    clear E0. fold ns.
    assert (Hns : ns * ng <= List.length v) by (unfold ns; rewrite Nat.mul_comm; apply Nat.mul_div_le; lia).
    assert (Hrep : forall r, r < ns -> nth r (repeat (repeat 0%R ng) ns) [] = repeat 0%R ng).
    { intros r Hr. rewrite (nth_indep _ [] (repeat 0%R ng)) by (rewrite repeat_length; auto).
      apply nth_repeat. }
    edestruct (@for_inv (list (list R) * nat) (fun n s => filled n 0 s) 0 ns) as (s & Es & Hs);
      [lia| | |rewrite Es].
    - split; [cbn [fst]; apply repeat_length|]. split; [intros r Hr; cbn [fst]; rewrite Hrep by auto; apply repeat_length|].
      split; [auto|]. intros r c Hr Hc H. nia.
    - intros n s Hn Hs.
      edestruct (@for_inv (list (list R) * nat) (fun g s => filled n g s) 0 ng) as (s' & Es' & Hs');
        [lia|exact Hs| |].
      2:{ exists s'. split; [exact Es'|]. destruct Hs' as (A & B & C & D). split; [auto|]. split; [auto|].
          split; [nia|]. intros r c Hr Hc H. apply D; auto. nia. }
      intros g u Hg (A & B & C & D).
      rewrite (rd_ok v 0%R) by (rewrite C; nia). cbn [bind].
      rewrite (rd_ok (fst u) []) by lia. cbn [bind].
      unfold wr at 1. rewrite (B n) by lia. destruct (g <? ng) eqn:Eg; [|apply Nat.ltb_ge in Eg; lia]. cbn [bind].
      unfold wr. rewrite A. destruct (n <? ns) eqn:En; [|apply Nat.ltb_ge in En; lia]. cbn [bind].
      eexists. split; [reflexivity|]. unfold filled. cbn [fst snd].
      split; [rewrite upd_length; auto|]. split.
      { intros r Hr. destruct (Nat.eq_dec n r) as [<-|Hne].
        - rewrite nth_upd_eq by lia. rewrite upd_length. apply B. auto.
        - rewrite nth_upd_neq by auto. apply B. auto. }
      split; [rewrite C; lia|].
      intros r c Hr Hc H. destruct (Nat.eq_dec n r) as [<-|Hne].
      + rewrite nth_upd_eq by lia. destruct (Nat.eq_dec g c) as [<-|Hgc].
        * rewrite nth_upd_eq by (rewrite B by lia; lia). rewrite C. auto.
        * rewrite nth_upd_neq by auto. apply D; auto. lia.
      + rewrite nth_upd_neq by auto. apply D; auto.
        assert (r < n) by nia. nia.
    - cbn [bind]. destruct Hs as (A & B & C & D). exists (fst s). split; [auto|]. split; [auto|].
      intros r Hr. split; [auto|]. intros c Hc. apply D; auto. nia.
  Qed.
End Table.

Section Execute.
  Variables (Sub F : Type) (parts : db Sub -> nat -> disc -> res unit)
            (details : db Sub -> kind -> res unit) (run : solver esource -> R -> F -> F) (zero : F)
            (eig : string -> manager esource F -> F).
  Notation execute := (execute parts details run zero eig).

  (** Whatever the input and the solvers, a problem that is not an eigenvalue
      problem ends with the initial flux: no solver is ever built. *)
  Lemma fixed_unsolved (d : db Sub) M ptype :
    says d "problem_type" "" ptype -> ptype <> "eigenvalue" -> execute d = Ok M ->
    g_flux M = zero /\ g_solver M = None /\ forall k, solve run k M = Ok (false, M).
  Proof.
    intros Hs Hne E. unfold Driver_Model.execute in E.
    apply bind_ok in E as (dimension & _ & E).
    apply str_or_says in Hs. rewrite Hs in E. cbn [bind] in E.
    apply bind_ok in E as (groups & _ & E).
    destruct (String.eqb_spec ptype "eigenvalue"); [contradiction|]. simpl in E.
    unfold execute_fixed in E. apply bind_ok in E as (keff & _ & E).
    apply bind_ok in E as (M0 & E0 & E). apply bind_ok in E as (q & _ & E).
    unfold setup in E0. apply bind_ok in E0 as (? & _ & E0). apply bind_ok in E0 as (? & _ & E0).
    injection E0 as <-. cbn in E. injection E as <-. auto.
  Qed.

  (** The source the driver makes is the one asked for. *)
  Lemma constant_source (d : db Sub) groups s :
    get_str d "source_type" = Ok "constant" -> has_dbl d "source_strength" s ->
    driver_source d groups = Ok (EConstant groups s).
  Proof.
    intros Ht Hs. unfold driver_source. rewrite Ht. cbn [bind].
    replace (check d "source_type") with true.
    2:{ symmetry. unfold get_str in Ht. apply bind_ok in Ht as (v & Hv & _). eapply getv_check; eauto. }
    rewrite (proj1 (get_dbl_ok Hs)). reflexivity.
  Qed.
  Lemma isotropic_source (d : db Sub) groups v mp :
    get_str d "source_type" = Ok "isotropic" -> has_vd d "source_spectra" v -> has_vi d "source_spectra_map" mp ->
    (0 < groups)%Z ->
    exists t, driver_source d groups = Ok (EIsotropic groups t mp) /\
      List.length t = List.length v / Z.to_nat groups /\
      forall r, r < List.length t -> List.length (nth r t []) = Z.to_nat groups /\
        forall c, c < Z.to_nat groups -> nth c (nth r t []) 0%R = nth (r * Z.to_nat groups + c) v 0%R.
  Proof.
    intros Ht Hv Hm Hg. unfold driver_source. rewrite Ht. cbn [bind].
    destruct (get_vd_ok Hv) as [V1 V2]. destruct (get_vi_ok Hm) as [M1 M2].
    destruct (@table_ok (Z.to_nat groups) v) as (t & Et & Lt & H); [lia|].
    exists t. split; [|rewrite Lt; auto].
    change (String.eqb "isotropic" "constant") with false. change (String.eqb "isotropic" "isotropic") with true.
    rewrite V1, V2, M1, M2. cbn [bind insist]. rewrite Et. reflexivity.
  Qed.

  (** The default strength of one is never used: without a strength the
      constant source is undefined. *)
  Lemma strength_needed (d : db Sub) groups :
    get_str d "source_type" = Ok "constant" -> check d "source_strength" = false ->
    driver_source d groups = UB.
  Proof.
    intros Ht Hs. unfold driver_source. rewrite Ht. cbn [bind].
    replace (check d "source_type") with true.
    2:{ symmetry. unfold get_str in Ht. apply bind_ok in Ht as (v & Hv & _). eapply getv_check; eauto. }
    change (String.eqb "constant" "constant") with true. cbn iota.
    unfold get_dbl. destruct (getv d TDbl "source_strength") eqn:E; [apply getv_check in E; congruence| |auto].
    simpl in E. destruct (mfind _ _); discriminate.
  Qed.

  (** An eigenvalue problem is solved by the eigensolver asked for, on a
      ready fixed source problem, or reports that it is not applicable. *)
  Lemma eigen_execute (d : db Sub) M n :
    has_int d "dimension" n -> says d "problem_type" "" "eigenvalue" -> execute d = Ok M ->
    says d "equation" "dd" "diffusion" \/
      (exists o, (o = "GS" \/ o = "CMFD" \/ o = "GMRES") /\ says d "outer_solver" "GS" o) ->
    exists M0, eigen_manager esource parts details zero d (Z.to_nat n) = Ok M0 /\ g_ready M0 = true /\
      ((exists name, says d "eigen_solver" "PI" name /\ M = with_flux M0 (eig name M0)) \/
       (M = M0 /\ exists name, says d "eigen_solver" "PI" name /\
          ((name = "diffusion" /\ g_disc M <> DIFF) \/ (name = "GD" /\ g_disc M = DIFF) \/
           ~ In name ["PI"; "diffusion"; "arnoldi"; "cmfd"; "GD"]))).
  Proof.
    intros Hd Hp E Ho. unfold Driver_Model.execute in E.
    rewrite (proj1 (get_int_ok Hd)) in E. cbn [bind] in E.
    apply str_or_says in Hp. rewrite Hp in E. cbn [bind] in E.
    apply bind_ok in E as (groups & _ & E). simpl in E.
    apply bind_ok in E as (M0 & E0 & E). apply bind_ok in E as ([b M1] & E1 & E).
    simpl in E. injection E as <-. exists M0. split; [auto|].
    split; [apply (eigen_ready E0 Ho)|].
    destruct b.
    - left. destruct (eigen_method E1) as (name & H1 & H2 & _). eauto.
    - right. unfold eigen_solve in E1. apply bind_ok in E1 as (name & En & E1).
      apply str_or_says in En.
      destruct (String.eqb_spec name "PI"); [discriminate|].
      destruct (String.eqb_spec name "diffusion").
      { destruct (g_disc M0) eqn:Ed; try discriminate; injection E1 as <-; split; auto; exists name;
          split; auto; left; split; auto; rewrite Ed; discriminate. }
      destruct (String.eqb_spec name "arnoldi"); [discriminate|].
      destruct (String.eqb_spec name "cmfd").
      { destruct (g_solver M0) as [s|]; [|discriminate]. destruct (s_kind s) as [|[] ? ?]; discriminate. }
      destruct (String.eqb_spec name "GD").
      { destruct (g_disc M0) eqn:Ed; try (destruct (g_solver M0) as [s|]; [|discriminate];
          destruct (s_kind s) as [|[] ? ?]; discriminate).
        injection E1 as <-. split; auto. exists name. auto. }
      injection E1 as <-. split; auto. exists name. split; auto. right. right. simpl. intuition congruence.
  Qed.
End Execute.

(** ** Witnesses *)
Definition x_db : db unit :=
  put (put (put (put (empty_db unit) "dimension" (VInt 1)) "number_groups" (VInt 1))
    "source_type" (VStr "constant")) "source_strength" (VDbl 2%R).
Definition x_run (s : solver esource) (_ : R) (_ : bool) : bool := true.
Lemma fixed_witness :
  exists M, execute (fun _ _ _ => Ok tt) (fun _ _ => Ok tt) x_run false (fun _ _ => true) x_db = Ok M /\
    g_flux M = false /\ exists q, g_sources M = [q] /\ q = EConstant 1 2%R.
Proof. eexists. split; [vm_compute; reflexivity|]. split; [reflexivity|]. eexists. split; reflexivity. Qed.

Definition m_db (dim : Z) (x y z : list Z) (xe ye ze : list R) (mm : list Z) : db unit :=
  put (put (put (put (put (put (put (put (empty_db unit) "dimension" (VInt dim))
    "mesh_xcme" (VVecDbl xe)) "mesh_xfm" (VVecInt x)) "mesh_ycme" (VVecDbl ye)) "mesh_yfm" (VVecInt y))
    "mesh_zcme" (VVecDbl ze)) "mesh_zfm" (VVecInt z)) "mesh_mat_map" (VVecInt mm).

Lemma unit_axis_ok n : (0 < n)%Z -> axis_ok (nats [n]) [0%R; 1%R].
Proof.
  intros H. split; [discriminate|]. split; [intros f [<-|[]]; lia|]. split; [reflexivity|].
  intros i Hi. simpl in Hi. assert (i = 0) by lia. subst i. simpl. lra.
Qed.

Lemma mesh_3d_witness :
  exists (d : db unit) m, has_int d "dimension" 3%Z /\
    gives_axis d "mesh_xcme" "mesh_xfm" [0; 1]%R [1]%Z /\ gives_axis d "mesh_ycme" "mesh_yfm" [0; 1]%R [2]%Z /\
    gives_axis d "mesh_zcme" "mesh_zfm" [0; 1]%R [3]%Z /\ has_vi d "mesh_mat_map" [0%Z] /\
    parse_mesh d = Ok m /\ ncells m = 18.
Proof.
  set (d := m_db 3 [1%Z] [2%Z] [3%Z] [0; 1]%R [0; 1]%R [0; 1]%R [0%Z]).
  assert (H : has_int d "dimension" 3%Z /\
    gives_axis d "mesh_xcme" "mesh_xfm" [0; 1]%R [1]%Z /\ gives_axis d "mesh_ycme" "mesh_yfm" [0; 1]%R [2]%Z /\
    gives_axis d "mesh_zcme" "mesh_zfm" [0; 1]%R [3]%Z /\ has_vi d "mesh_mat_map" [0%Z]).
  { split; [reflexivity|].
    split; [split; [reflexivity|split; [reflexivity|apply unit_axis_ok; lia]]|].
    split; [split; [reflexivity|split; [reflexivity|apply unit_axis_ok; lia]]|].
    split; [split; [reflexivity|split; [reflexivity|apply unit_axis_ok; lia]]|]. reflexivity. }
  destruct H as (A & B & C & D & E).
  destruct (mesh_3d A B C D E) as (m & Em & _ & _ & X & Y & Z & _); try reflexivity.
  exists d, m. split; [auto|]. split; [auto|]. split; [auto|]. split; [auto|]. split; [auto|]. split; [auto|].
  unfold ncells. rewrite X, Y, Z. reflexivity.
Qed.

(** The y edges are not checked against the y counts. *)
Lemma mesh_2d_unchecked :
  exists d : db unit, gives_axis d "mesh_xcme" "mesh_xfm" [0; 1]%R [1]%Z /\
    has_vd d "mesh_ycme" [0%R] /\ has_vi d "mesh_yfm" [1%Z] /\ has_int d "dimension" 2%Z /\ parse_mesh d = UB.
Proof.
  exists (m_db 2 [1%Z] [1%Z] [] [0; 1]%R [0]%R [] [0%Z]).
  split; [split; [reflexivity|split; [reflexivity|apply unit_axis_ok; lia]]|].
  split; [reflexivity|]. split; [reflexivity|]. split; [reflexivity|]. reflexivity.
Qed.

(** Valid inputs of each kind. *)
Example case_1d :
  let d := m_db 1 [2; 3]%Z [] [] [0; 1; 3]%R [] [] [4; 5]%Z in
  has_int d "dimension" 1%Z /\ gives_axis d "mesh_xcme" "mesh_xfm" [0; 1; 3]%R [2; 3]%Z /\ has_vi d "mesh_mat_map" [4; 5]%Z.
Proof.
  intros d. split; [reflexivity|]. split; [|reflexivity]. split; [reflexivity|]. split; [reflexivity|].
  split; [discriminate|]. split; [intros f [<-|[<-|[]]]; simpl; lia|]. split; [reflexivity|].
  intros [|[|i]] Hi; simpl in *; try lia; lra.
Qed.
Example case_2d :
  let d := m_db 2 [2; 3]%Z [1]%Z [] [0; 1; 3]%R [0; 1]%R [] [4; 5]%Z in
  has_int d "dimension" 2%Z /\ gives_axis d "mesh_xcme" "mesh_xfm" [0; 1; 3]%R [2; 3]%Z /\
  gives_axis d "mesh_ycme" "mesh_yfm" [0; 1]%R [1]%Z /\ has_vi d "mesh_mat_map" [4; 5]%Z /\
  parse_mesh d = Err.
Proof.
  intros d.
  assert (A : has_int d "dimension" 2%Z) by reflexivity.
  assert (B : gives_axis d "mesh_xcme" "mesh_xfm" [0; 1; 3]%R [2; 3]%Z).
  { split; [reflexivity|]. split; [reflexivity|].
    split; [discriminate|]. split; [intros f [<-|[<-|[]]]; simpl; lia|]. split; [reflexivity|].
    intros [|[|i]] Hi; simpl in *; try lia; lra. }
  assert (C : gives_axis d "mesh_ycme" "mesh_yfm" [0; 1]%R [1]%Z)
    by (split; [reflexivity|split; [reflexivity|apply unit_axis_ok; lia]]).
  assert (D : has_vi d "mesh_mat_map" [4; 5]%Z) by reflexivity.
  split; [auto|]. split; [auto|]. split; [auto|]. split; [auto|].
  apply (mesh_2d A B C D eq_refl). discriminate.
Qed.
