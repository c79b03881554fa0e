(** * Gds_Proofs *)
From Coq Require Import Lra Lia.
From Verif Require Import Base BaseR Loop Util_Model Mesh_Model Angle_Model Boundary_Model Boundary_Spec Boundary_Proofs Cell_Model Cell_Spec
  Material_Model Material_Spec Material_Proofs Source_Model Source_Spec Source_Proofs Sweep_Model Sweep_Spec Sweep_Proofs
  Iter_Model Iter_Spec Wg_Spec Iter_Proofs Wg_Proofs Mgk_Model Mgk_Spec Mgk_Proofs Gd_Model Gd_Spec Gd_Proofs Gds_Model Gds_Spec.
Open Scope nat_scope.
Set Implicit Arguments. Unset Strict Implicit.

Lemma put_all row f : length row = length f -> put_seg row 0 f = Ok f.
Proof.
  intros L. unfold put_seg. cbn [plus]. rewrite (proj2 (Nat.leb_le _ _)) by lia. cbn [firstn app].
  rewrite <- L, skipn_all, app_nil_r. reflexivity.
Qed.
Lemma fill_ok G n x phi : length phi = G -> (forall g, g < G -> length (nth g phi []) = n) -> G * n <= length x ->
  gd_fill G n x phi = Ok (by_groups n G x, G * n).
Proof.
  intros LP LR LX. unfold gd_fill.
  destruct (@for_inv _ (fun g s => snd s = g * n /\ length (fst s) = G /\ (forall h, h < g -> nth h (fst s) [] = part x n h) /\
      (forall h, h < G -> length (nth h (fst s) []) = n)) 0 G (phi, 0) (fun g s =>
    do row <- rd (fst s) g; do f <- seg x (snd s) n; do row <- put_seg row 0 f; do phi <- wr (fst s) g row; Ok (phi, snd s + n)))
    as ([p k] & E & K1 & K2 & K3 & K4).
  - lia.
  - cbn. repeat split; auto. intros; lia.
  - intros g [p k] Hg (K1 & K2 & K3 & K4). cbn [fst snd] in *. subst k.
    assert (LE : g * n + n <= length x) by nia.
    rewrite (@rd_ok _ _ g []) by lia. cbn [bind]. rewrite seg_ok by auto. cbn [bind].
    rewrite put_all by (rewrite part_length; apply K4; lia). cbn [bind]. unfold wr. rewrite (proj2 (Nat.ltb_lt g (length p))) by lia. cbn [bind].
    eexists. split; [reflexivity|]. cbn [fst snd]. split; [lia|]. split; [rewrite upd_length; auto|]. split.
    + intros h Hh. destruct (Nat.eq_dec g h) as [<-|N]; [apply nth_upd_eq; lia|]. rewrite nth_upd_neq by auto. apply K3. lia.
    + intros h Hh. destruct (Nat.eq_dec g h) as [<-|N]; [rewrite nth_upd_eq by lia; apply part_length|]. rewrite nth_upd_neq by auto. auto.
  - cbn [fst snd] in *. rewrite E, K1. f_equal. f_equal. apply list_ext_nth with (d := []).
    + unfold by_groups. rewrite map_length, seq_length. auto.
    + intros h Hh. rewrite K3 by lia. unfold by_groups. rewrite nth_map_seq by lia. reflexivity.
Qed.

Theorem gd_solved w m half t q es : let y := ssrc (t_x t) in let n := cells y in let G := ng (mat y) in
  adj y = false -> (forall g, g < G -> wellposed w m g t) -> vacuum_boundary (t_b t) ->
  length (phis t) = G -> (forall g, g < G -> length (nth g (phis t) []) = n) ->
  fiss (t_x t) = Some q -> fscale q = 1%R -> implicit (t_x t) = false -> dext (t_x t) = [] ->
  mg_state w m 0 t t -> finds_gd_pair w m half t es ->
  exists t' k, gd_solve es (G * n) t = Ok (t', k) /\ k <> 0%R /\ (exists g c, g < G /\ c < n /\ phi_of (phis t') g c <> 0%R) /\
    mg_flux w (eigen_problem (t_x t) k) (t_b t) (fun g => g < G) (phis t') /\ length (phis t') = G.
Proof.
  intros y n G A W V LP LR F FS I D M FP. destruct FP as (u & x & k & E & Mu & Lx & Nk & (i0 & Hi0 & X0) & PR).
  destruct (@gd_problem w m half t q k t t x (repeat 0%R (G * n)) (repeat 0%R (G * n)) A W V LP LR F FS I D Nk M M Lx (repeat_length _ _) (repeat_length _ _))
    as (v1 & a & v2 & f & E1 & _ & _ & E2 & _ & _ & EQ).
  assert (KM : k_mode w t k x) by (apply EQ; intros i Hi; apply (PR _ _ _ _ _ _ _ _ M M (repeat_length _ _) (repeat_length _ _) E1 E2 i Hi)).
  destruct Mu as [_ (ff & ss & Eu) _].
  assert (P1 : ssrc (t_x u) = ssrc (t_x t)) by (rewrite Eu; reflexivity).
  exists (with_x u (with_phis (t_x u) (by_groups n G x))), k. unfold gd_solve. fold y in E. fold n in E. fold G in E. rewrite E. cbn [bind fst snd].
  rewrite P1. fold y. fold n. fold G. unfold phis at 1. rewrite P1. change (flux (ssrc (t_x t))) with (phis t).
  rewrite (@fill_ok G n x (phis t) LP LR) by (apply Nat.eq_le_incl; symmetry; exact Lx). cbn [bind fst]. split; [reflexivity|]. split; [auto|].
  change (phis (with_x u (with_phis (t_x u) (by_groups n G x)))) with (by_groups n G x). split; [|split; [exact KM|unfold by_groups; rewrite map_length, seq_length; reflexivity]].
  change (i0 < G * n) in Hi0. assert (Hn : 0 < n) by nia. exists (i0 / n), (i0 mod n).
  assert (HG : i0 / n < G) by (apply Nat.div_lt_upper_bound; lia). assert (HC : i0 mod n < n) by (apply Nat.mod_upper_bound; lia).
  split; [exact HG|]. split; [exact HC|]. unfold phi_of, by_groups. rewrite nth_map_seq by exact HG.
  change (at_ (part x n (i0 / n)) (i0 mod n) <> 0%R). rewrite part_at by exact HC. rewrite (Nat.mul_comm (i0 / n) n), <- Nat.div_mod by lia. exact X0.
Qed.
