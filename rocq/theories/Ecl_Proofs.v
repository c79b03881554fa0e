(** * Ecl_Proofs *)
From Coquelicot Require Import Coquelicot.
From Coq Require Import Lra Lia.
From Verif Require Import Base BaseR Loop Util_Model Mesh_Model Mesh_Spec Material_Model Matrix_Model Matrix_Spec Angle_Model Sweep_Model Tally_Model Tally_Spec Region_Model Diffusion_Model Diffusion_Spec Cmfd_Model Cmfd_Spec
  Ecmfd_Model Ecmfd_Spec Ecmfd_Proofs Ecmfd_Proofs3 Ecl_Model Ecl_Spec.
Open Scope nat_scope.
Set Implicit Arguments. Unset Strict Implicit.

Lemma rsum_head n f : rsum (S n) f = (f 0%nat + rsum n (fun i => f (S i)))%R.
Proof. induction n as [|n IH]; [cbn; ring|]. change (rsum (S (S n)) f) with (rsum (S n) f + f (S n))%R. rewrite IH. cbn [rsum]. ring. Qed.
Lemma l1_from (d : list R) a : fold_left (fun v x => v + Rabs x)%R d a = (a + rsum (length d) (fun i => Rabs (nth i d 0)))%R.
Proof.
  revert a. induction d as [|y d IH]; intros a; cbn [fold_left length]; [cbn; ring|]. rewrite IH, rsum_head. cbn [nth]. ring.
Qed.
Lemma linf_from (d : list (R * R)) a tol : (fold_left (fun v q => rmax (Rabs (fst q - snd q)) v) d a < tol)%R <->
  (a < tol)%R /\ forall q, In q d -> (Rabs (fst q - snd q) < tol)%R.
Proof.
  revert a. induction d as [|y d IH]; intros a; cbn [fold_left In]; [firstorder|]. rewrite IH. unfold rmax. split.
  - intros (A & B). destruct (Rlt_dec _ _) as [L|L]; (split; [lra|]); intros q [<-|Q]; auto; lra.
  - intros (A & B). split; [|auto]. destruct (Rlt_dec _ _); [auto|]. apply B. auto.
Qed.
Lemma residual_close (x y : list R) n e tol : length x = n -> length y = n -> norm_residual x y Linf = Ok e ->
  ((e < tol)%R <-> forall c, c < n -> (Rabs (nth c x 0 - nth c y 0) < tol)%R).
Proof.
  intros Lx Ly E. unfold norm_residual in E.
  assert (K : forall q, In q (combine x y) <-> exists c, c < n /\ q = (nth c x 0%R, nth c y 0%R)).
  { intros q. split.
    - intros Q. apply (In_nth _ _ (0%R, 0%R)) in Q. destruct Q as (c & Hc & Q). rewrite combine_length in Hc. rewrite combine_nth in Q by lia.
      exists c. split; [lia|auto].
    - intros (c & Hc & ->). rewrite <- combine_nth by lia. apply nth_In. rewrite combine_length. lia. }
  destruct (combine x y) as [|p d] eqn:EC; [discriminate|]. injection E as <-. rewrite linf_from. split.
  - intros (A & B) c Hc. assert (Q : In (nth c x 0%R, nth c y 0%R) (p :: d)) by (apply K; eauto). destruct Q as [->|Q]; [exact A|]. apply (B _ Q).
  - intros H. split.
    + destruct (proj1 (K p) (or_introl eq_refl)) as (c & Hc & ->). apply H. auto.
    + intros q Q. destruct (proj1 (K q) (or_intror Q)) as (c & Hc & ->). apply H. auto.
Qed.

Lemma density_len U phi : length (edensity U phi) = ncells (u_mesh U).
Proof. unfold edensity. rewrite map_length, seq_length. reflexivity. Qed.
Lemma density_at U phi c : c < ncells (u_mesh U) -> nth c (edensity U phi) 0%R = made U phi c.
Proof.
  intros Hc. unfold edensity. match goal with |- nth _ (map ?f _) _ = _ => rewrite (nth_indep (map f (seq 0 (ncells (u_mesh U)))) 0%R (f 0)) by (rewrite map_length, seq_length; auto); rewrite (map_nth f) end.
  rewrite seq_nth by auto. rewrite Nat.add_0_l. unfold made, val2. apply rsum_ext. intros g Hg. apply Rmult_comm.
Qed.
Lemma density_total U phi : norm (edensity U phi) L1 = Ok (total_made U phi).
Proof.
  cbn [norm]. rewrite l1_from, density_len. f_equal. unfold total_made. rewrite Rplus_0_l. apply rsum_ext. intros c Hc. rewrite density_at by auto. reflexivity.
Qed.
Lemma total_nonneg U phi : (0 <= total_made U phi)%R.
Proof. unfold total_made. apply rsum_nonneg. intros. apply Rabs_pos. Qed.
Lemma normal_shares U phi fd : enormal (edensity U phi) = Ok fd <-> shares U phi fd.
Proof.
  unfold enormal. rewrite density_total. cbn [bind]. pose proof (total_nonneg U phi) as P. unfold shares. destruct (Req_EM_T _ _) as [Z|Z].
  - split; [discriminate|]. intros (_ & Q & _). lra.
  - assert (V : forall c, c < ncells (u_mesh U) -> nth c (map (Rmult (1 / total_made U phi)) (edensity U phi)) 0%R = (made U phi c / total_made U phi)%R).
    { intros c Hc. rewrite nth_scaled, density_at by auto. field. auto. }
    split.
    + intros E. injection E as <-. split; [rewrite map_length; apply density_len|]. split; [lra|exact V].
    + intros (L & _ & W). f_equal. apply (nth_ext _ _ 0%R 0%R); [rewrite map_length, density_len; auto|].
      intros c Hc. rewrite map_length, density_len in Hc. rewrite V, W by auto. reflexivity.
Qed.

(** ** Runs *)
Theorem passes_run sweep srt eig U C cur alpha tol max k fd h phi k' fd' phi' q :
  length fd = ncells (u_mesh U) -> epasses sweep srt eig U C cur alpha tol max k fd h phi = Ok (k', fd', phi', q) ->
  exists s : nat -> stage, s 0 = {| g_k := k; g_fd := fd; g_h := h; g_phi := phi |} /\
    (forall i, i < q -> pass sweep srt eig U C cur alpha (s i) (s (S i))) /\
    g_k (s q) = k' /\ g_fd (s q) = fd' /\ g_phi (s q) = phi' /\ q <= max /\
    (forall i, S i < q -> ~ close U tol (s i) (s (S i))) /\ (q < max -> exists i, q = S i /\ close U tol (s i) (s (S i))).
Proof.
  revert k fd h phi q. induction max as [|max IH]; intros k fd h phi q L E; cbn [epasses] in E.
  - injection E as <- <- <- <-. eexists (fun _ => _). split; [reflexivity|]. cbn. repeat split; auto; lia.
  - destruct (sweep fd phi) as [(p & T)| |] eqn:ES; cbn [bind fst snd] in E; try discriminate.
    destruct (eupdate _ _ _ _ _ _ _ _ _) as [((k1 & phi1) & h1)| |] eqn:EU; cbn [bind] in E; try discriminate.
    destruct (enormal _) as [fd1| |] eqn:EN; cbn [bind] in E; try discriminate. apply normal_shares in EN.
    destruct (norm_residual _ _ _) as [e| |] eqn:EE; cbn [bind] in E; try discriminate.
    pose proof (proj1 EN) as L1. pose proof (residual_close tol L1 L EE) as RC.
    set (a := {| g_k := k; g_fd := fd; g_h := h; g_phi := phi |}). set (b := {| g_k := k1; g_fd := fd1; g_h := Some h1; g_phi := phi1 |}).
    assert (PA : pass sweep srt eig U C cur alpha a b) by (exists p, T, h1; auto).
    destruct (Rlt_dec e tol) as [LT|GE].
    + injection E as <- <- <- <-. exists (fun i => match i with 0 => a | _ => b end). split; [reflexivity|].
      split; [intros [|i] Hi; [exact PA|lia]|]. do 3 (split; [reflexivity|]). split; [lia|]. split; [intros; lia|].
      intros _. exists 0. split; auto. intros c Hc. apply RC; auto.
    + destruct (epasses _ _ _ _ _ _ _ _ _ _ _ _ _) as [(((k2 & fd2) & phi2) & q2)| |] eqn:EP; cbn [bind fst snd] in E; try discriminate.
      injection E as <- <- <- <-. destruct (IH _ _ _ _ _ L1 EP) as (s & S0 & S1 & S2 & S3 & S4 & S5 & S6 & S7).
      exists (fun i => match i with 0 => a | S i => s i end). split; [reflexivity|].
      split. { intros [|i] Hi; [rewrite S0; exact PA|]. apply S1. lia. }
      do 3 (split; [assumption|]). split; [lia|]. split.
      * intros [|i] Hi; [|apply S6; lia]. rewrite S0. intros CL. apply GE. apply RC. exact CL.
      * intros Hq. destruct S7 as (i & -> & CL); [lia|]. exists (S i). split; auto.
Qed.
Lemma first_len U fd : efirst U = Ok fd -> length fd = ncells (u_mesh U).
Proof.
  unfold efirst, enormal. cbn [norm bind]. destruct (Req_EM_T _ _); [discriminate|]. intros E. injection E as <-. rewrite !map_length, seq_length. reflexivity.
Qed.

(** ** No relaxation in the input *)
Lemma unset_fails srt eig U C T cur h phi r : eupdate srt eig U C T cur None (Some h) phi <> Ok r.
Proof.
  unfold eupdate, ecoarse. intros E.
  destruct (coarse_of C); cbn [bind] in E; try discriminate. destruct (coarse_map C); cbn [bind] in E; try discriminate.
  destruct (mapM _ _); cbn [bind] in E; try discriminate. destruct (homogenize _ _ _); cbn [bind relaxation] in E; discriminate.
Qed.
Theorem default_one_pass sweep srt eig U C cur tol max phi k fd phi' q :
  esolve sweep srt eig U C cur None tol max phi = Ok (k, fd, phi', q) -> q <= 1 /\ q = Nat.min 1 max.
Proof.
  unfold esolve. destruct (efirst U) as [fd0| |] eqn:E0; cbn [bind]; try discriminate. intros E. pose proof (first_len E0) as L0.
  destruct (passes_run L0 E) as (s & S0 & S1 & _ & _ & _ & S5 & _ & S7).
  assert (Q : q <= 1).
  { destruct q as [|[|q]]; try lia. exfalso. destruct (S1 0 ltac:(lia)) as (_ & _ & h & _ & _ & H & _).
    destruct (S1 1 ltac:(lia)) as (p & T & h2 & _ & EU & _). rewrite H in EU. exact (unset_fails EU). }
  split; auto. destruct max as [|max]; [lia|]. destruct q; [|lia]. destruct S7 as (i & ? & _); [lia|discriminate].
Qed.

(** ** Standing still *)
Lemma born_made U phi g c : born U phi g c = (emitted U g c * made U phi c)%R.
Proof.
  unfold born, emitted, made, birth. rewrite <- rsum_scal. apply rsum_ext. intros gp Hg. destruct (u_adj U); ring.
Qed.
Lemma swept_ext U C s1 s2 phi T : (forall g c, g < ng (u_mat U) -> c < ncells (u_mesh U) -> s1 g c = s2 g c) -> swept_all U C s1 phi T -> swept_all U C s2 phi T.
Proof.
  intros E H g Hg. destruct (H g Hg) as (qd & ds & src & SW & nrm & N1 & N2). exists qd, ds, src. split; [exact SW|]. exists nrm. split; auto.
  intros o a c Ho Ha Hc. rewrite N2, E by auto. reflexivity.
Qed.
Theorem still_mode U C phi fd T : shares U phi fd ->
  (swept_all U C (fun g c => scattering U phi g c + emitted U g c * nth c fd 0)%R phi T <-> mode U C (total_made U phi) phi T).
Proof.
  intros (L & P & V). unfold mode. split; apply swept_ext; intros g c Hg Hc; rewrite born_made, V by auto; field; lra.
Qed.
Theorem still_returned sweep srt eig U C level T cur alpha tol n k0 phi fd : is_sort srt -> keeps_modes eig -> problem_ok U ->
  coarse_mesh (Mesh_Model.dim (u_mesh U)) (grid_of U 0) level = Ok C -> Mesh_Model.dim (u_mesh U) < 3 ->
  positive_flux U phi -> current_ok U cur -> u_adj U = false \/ ng (u_mat U) = 1 -> fissile U -> (0 < tol)%R ->
  shares U phi fd -> sweep fd phi = Ok (phi, T) ->
  swept_all U C (fun g c => scattering U phi g c + emitted U g c * nth c fd 0)%R phi T ->
  epasses sweep srt eig U C cur alpha tol (S n) k0 fd None phi = Ok (total_made U phi, fd, phi, 1).
Proof.
  intros HS HE HP HC HD HF HCU HA HX Ht SH ES SW. apply (still_mode C T SH) in SW.
  pose proof (@mode_kept srt eig U C level T cur alpha phi (total_made U phi) (fun _ => (phi, T)) 1 HS HE HP HC HD HF HCU HA HX
    (proj1 (proj2 SH)) SW eq_refl (or_intror (le_n 1))) as K.
  cbn [eupdates fst snd repeat] in K. cbn [epasses]. rewrite ES. cbn [bind fst snd].
  destruct (eupdate _ _ _ _ _ _ _ _ _) as [((k1 & phi1) & h1)| |]; cbn [bind fst snd] in K |- *; try discriminate. injection K as -> ->.
  rewrite (proj2 (normal_shares U phi fd) SH). cbn [bind].
  assert (NZ : 0 < ncells (u_mesh U)). { destruct HX as (X & _ & (c & Hc & _) & _). lia. }
  destruct (norm_residual fd fd Linf) as [e| |] eqn:EE; cbn [bind].
  - pose proof (proj2 (residual_close tol (proj1 SH) (proj1 SH) EE)) as RC. destruct (Rlt_dec e tol) as [_|N]; [reflexivity|]. exfalso. apply N, RC.
    intros c Hc. rewrite Rminus_diag_eq by reflexivity. rewrite Rabs_R0. exact Ht.
  - unfold norm_residual in EE. destruct (combine fd fd); discriminate.
  - unfold norm_residual in EE. destruct SH as (L & _). destruct fd; [cbn in L; lia|discriminate].
Qed.
