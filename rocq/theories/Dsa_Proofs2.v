(** * Dsa_Proofs2: what MGDSA and PC_DSA compute. *)
From Verif Require Import Base BaseR Loop Util_Model Mesh_Model Mesh_Spec Material_Model Material_Spec Matrix_Model Matrix_Spec Diffusion_Model Diffusion_Spec Diffusion_Proofs
  Dpos_Proofs Gmres_Model Cpc_Model Source_Model Source_Spec Source_Proofs Dsa_Model Dsa_Spec.
From Coq Require Import Lra.
Set Implicit Arguments. Unset Strict Implicit.
Open Scope nat_scope.

(** ** Tables of fluxes *)
Definition table (G n : nat) (phi : list (list R)) : Prop := length phi = G /\ forall g, g < G -> length (nth g phi []) = n.
Lemma table_flux G n phi : table G n phi -> flux_ok n G phi.
Proof. intros [L H]. split; auto. intros g Hg. rewrite H by auto. lia. Qed.
Lemma wr_ok A (l : list A) i v : i < length l -> wr l i v = Ok (upd l i v).
Proof. intros H. unfold wr. rewrite (proj2 (Nat.ltb_lt _ _) H). auto. Qed.
Lemma nth_upd A (l : list A) i v j d : i < length l -> nth j (upd l i v) d = if j =? i then v else nth j l d.
Proof.
  intros H. destruct (Nat.eqb_spec j i) as [->|N].
  - apply nth_error_nth. apply nth_error_upd_eq. auto.
  - destruct (Nat.lt_ge_cases j (length l)) as [L|L].
    + apply nth_error_nth. rewrite nth_error_upd_neq by auto. apply nth_error_nth'. auto.
    + rewrite !nth_overflow; auto. rewrite upd_length. auto.
Qed.
Lemma wr2_ok G n phi g i v : table G n phi -> g < G -> i < n ->
  exists phi', wr2 phi g i v = Ok phi' /\ table G n phi' /\ forall a b, phi_of phi' a b = if (a =? g) && (b =? i) then v else phi_of phi a b.
Proof.
  intros [L H] Hg Hi. unfold wr2. rewrite (@rd_ok _ phi g []) by lia. cbn [bind]. rewrite wr_ok by (rewrite H; auto). cbn [bind].
  rewrite wr_ok by lia. eexists. split; [reflexivity|]. split.
  - split; [rewrite upd_length; auto|]. intros a Ha. rewrite nth_upd by lia. destruct (Nat.eqb_spec a g) as [->|]; [rewrite upd_length|]; apply H; auto.
  - intros a b. unfold phi_of. rewrite nth_upd by lia. destruct (Nat.eqb_spec a g) as [->|]; cbn [andb]; auto. rewrite nth_upd by (rewrite H; auto).
    destruct (b =? i); auto.
Qed.
Lemma zero_table G n : table G n (repeat (repeat 0%R n) G).
Proof. split; [apply repeat_length|]. intros g Hg. rewrite (nth_indep _ _ (repeat 0%R n)) by (rewrite repeat_length; auto). rewrite nth_repeat. apply repeat_length. Qed.
Lemma zero_phi G n a b : phi_of (repeat (repeat 0%R n) G) a b = 0%R.
Proof.
  unfold phi_of. destruct (Nat.lt_ge_cases a G) as [L|L].
  - rewrite (nth_indep _ _ (repeat 0%R n)) by (rewrite repeat_length; auto). rewrite nth_repeat. apply nth_repeat.
  - rewrite (nth_overflow (repeat _ G)) by (rewrite repeat_length; auto). destruct b; auto.
Qed.

Lemma dsa_fluxes_ok x cut V : let n := cells x in let G := ng (mat x) in cut <= G -> (G - cut) * n <= length V ->
  exists phi, dsa_fluxes x cut V = Ok phi /\ table G n phi /\
    forall g c, c < n -> phi_of phi g c = if (cut <=? g) && (g <? G) then nth ((g - cut) * n + c) V 0%R else 0%R.
Proof.
  intros n G HC HV. unfold dsa_fluxes. fold n G.
  destruct (@for_inv _ (fun h phi => table G n phi /\ forall g c, c < n -> phi_of phi g c = if (cut <=? g) && (g <? h) then nth ((g - cut) * n + c) V 0%R else 0%R)
    cut G (repeat (repeat 0%R n) G) (fun g phi => for_ 0 n phi (fun i phi => do v <- rd V ((g - cut) * n + i); wr2 phi g i v)) HC) as (phi & E & H).
  - split; [apply zero_table|]. intros g c Hc. rewrite zero_phi. destruct (Nat.leb_spec cut g), (Nat.ltb_spec g cut); cbn [andb]; auto; lia.
  - intros g phi Hg [T P].
    destruct (@for_inv _ (fun j phi => table G n phi /\ forall a c, c < n -> phi_of phi a c =
        if (cut <=? a) && ((a <? g) || (a =? g) && (c <? j)) then nth ((a - cut) * n + c) V 0%R else 0%R)
      0 n phi (fun i phi => do v <- rd V ((g - cut) * n + i); wr2 phi g i v)) as (phi' & E & T' & P'); [lia|..].
    + split; auto. intros a c Hc. rewrite P by auto. replace (c <? 0) with false by (symmetry; apply Nat.ltb_ge; lia). rewrite andb_false_r, orb_false_r. auto.
    + intros i ph Hi [Ti Pi]. assert (IX : (g - cut) * n + i < length V) by nia. rewrite (@rd_ok _ V _ 0%R) by auto. cbn [bind].
      destruct (@wr2_ok G n ph g i (nth ((g - cut) * n + i) V 0%R) Ti) as (ph' & -> & T' & P'); try lia. eexists. split; [reflexivity|]. split; auto.
      intros a c Hc. rewrite P'. destruct (Nat.eqb_spec a g) as [->|Na]; cbn [andb].
      * destruct (Nat.eqb_spec c i) as [->|Nc].
        -- rewrite (proj2 (Nat.leb_le cut g)) by lia. rewrite (proj2 (Nat.ltb_lt i (S i))) by lia. rewrite orb_true_r. auto.
        -- rewrite Pi by auto. rewrite Nat.eqb_refl. cbn [andb]. replace (c <? S i) with (c <? i); auto.
           destruct (Nat.ltb_spec c i), (Nat.ltb_spec c (S i)); auto; lia.
      * rewrite Pi by auto. rewrite (proj2 (Nat.eqb_neq a g)) by auto. auto.
    + exists phi'. split; auto. split; auto. intros a c Hc. rewrite P' by auto. rewrite (proj2 (Nat.ltb_lt c n)) by auto. rewrite andb_true_r.
      f_equal. f_equal. destruct (Nat.ltb_spec a g), (Nat.eqb_spec a g), (Nat.ltb_spec a (S g)); auto; lia.
  - exists phi. split; auto.
Qed.

(** ** Sources over all groups from fluxes that vanish below the cutoff *)
Section Src.
  Variables (x : src) (cut : nat) (phi : list (list R)).
  Let n := cells x.
  Let G := ng (mat x).
  Hypothesis P : problem x.
  Hypothesis AF : adj x = false.
  Hypothesis NN : forall g gp k, g < G -> gp < G -> k < nm (mat x) -> (0 <= ss (mat x) g gp k)%R.
  Hypothesis BC : bounds_complete (mat x).
  Hypothesis BA : bounds_attained (mat x).
  Hypothesis HC : cut < G.
  Hypothesis F : flux_ok n G phi.
  Hypothesis Z : forall gp c, gp < cut -> c < n -> phi_of phi gp c = 0%R.

  Lemma scat_total_all g s : g < G -> n <= length s ->
    exists s', scat_total x g cut phi s = Ok s' /\ added n (scatter_sum x phi all_groups g) s s'.
  Proof.
    intros Hg Hs. unfold scat_total. assert (Hh : hi x g < G /\ lo x g <= hi x g).
    { unfold hi, lo. rewrite AF. destruct (BA Hg) as (A1 & _ & A3 & _). split; auto; lia. }
    destruct (@scat_groups_ok x g (groups cut (hi x g) true) phi s) as (s' & E & A); auto using nodup_groups.
    - intros i Hi. apply in_groups in Hi. fold G. lia.
    - exists s'. split; auto. eapply added_ext; [|exact A]. intros c Hc. apply rsum_ext. intros i Hi. unfold all_groups. cbv beta.
      destruct (existsb (Nat.eqb i) (groups cut (hi x g) true)) eqn:Ei; auto.
      destruct (Nat.lt_ge_cases i cut) as [L|L]; [rewrite Z by auto; ring|].
      assert (Lh : hi x g < i).
      { destruct (Nat.lt_ge_cases (hi x g) i) as [Lh|Lh]; auto. exfalso. apply not_true_iff_false in Ei. apply Ei. apply existsb_in, in_groups. split; auto. lia. }
      unfold transfer_xs. rewrite AF. destruct P as (_ & P2 & _). specialize (P2 c Hc). fold (mat_of x c) in P2.
      destruct (NN Hg Hi P2) as [H|<-]; [|ring]. exfalso.
      destruct (BC Hg Hi) as [B _]; [exists (mat_of x c); auto|]. unfold hi in Lh. rewrite AF in Lh. lia.
  Qed.

  Variables (f : fis) (inc : bool).
  Hypothesis FS : inc = true -> fsrc f = x.
  Definition total_source (g c : nat) : R :=
    (scatter_sum x phi all_groups g c + (if inc then fscale f * fission_sum x phi all_groups g c else 0))%R.

  Lemma dsa_source_ok : exists q, dsa_source x f inc cut phi = Ok q /\ length q = n * (G - cut) /\
    forall g c, cut <= g < G -> c < n -> nth ((g - cut) * n + c) q 0%R = total_source g c.
  Proof.
    unfold dsa_source. fold n G. rewrite AF. cbn [active_groups].
    destruct (@for_inv _ (fun h q => length q = n * (G - cut) /\ forall g c, cut <= g < h -> c < n -> nth ((g - cut) * n + c) q 0%R = total_source g c)
      cut G (repeat 0%R (n * (G - cut))) (fun g Q => do s <- scat_total x g cut phi (repeat 0%R n);
        do s <- (if inc then fis_total f g phi s else Ok s); for_ 0 n Q (fun i Q => do v <- rd s i; wr Q ((g - cut) * n + i) v))) as (q & E & H); [lia|..].
    - split; [apply repeat_length|]. intros; lia.
    - intros g q Hg [L H]. destruct (@scat_total_all g (repeat 0%R n)) as (s1 & E1 & A1); [lia|rewrite repeat_length; auto|]. rewrite E1. cbn [bind].
      assert (E2 : exists s2, (if inc then fis_total f g phi s1 else Ok s1) = Ok s2 /\ length s2 = n /\ forall c, c < n -> nth c s2 0%R = total_source g c).
      { destruct A1 as [La1 A1]. rewrite repeat_length in La1, A1. unfold total_source. destruct inc.
        - assert (FS' := FS eq_refl). destruct (@fis_total_ok f g phi s1) as (s2 & E2 & A2).
          + rewrite FS'. auto.
          + rewrite FS'. auto.
          + rewrite FS'. apply Hg.
          + rewrite FS', La1. auto.
          + destruct A2 as [La2 A2]. rewrite FS', La1 in *. exists s2. split; auto. split; auto. intros c Hc. fold n in A2. rewrite A2, A1 by auto.
            rewrite (proj2 (Nat.ltb_lt c n)) by auto. rewrite nth_repeat. ring.
        - exists s1. split; auto. split; auto. intros c Hc. rewrite A1 by auto. rewrite (proj2 (Nat.ltb_lt c n)) by auto. rewrite nth_repeat. ring. }
      destruct E2 as (s2 & -> & L2 & H2). cbn [bind].
      destruct (@for_inv _ (fun j q => length q = n * (G - cut) /\ (forall a c, cut <= a < g -> c < n -> nth ((a - cut) * n + c) q 0%R = total_source a c) /\
        (forall c, c < j -> nth ((g - cut) * n + c) q 0%R = total_source g c)) 0 n q (fun i Q => do v <- rd s2 i; wr Q ((g - cut) * n + i) v)) as (q' & E' & L' & H1' & H2'); [lia|..].
      + split; auto. split; auto. intros; lia.
      + intros i r Hi (Lr & R1 & R2). rewrite (@rd_ok _ s2 i 0%R) by lia. cbn [bind].
        assert (IX : (g - cut) * n + i < length r) by (rewrite Lr; nia). rewrite wr_ok by auto. eexists. split; [reflexivity|]. split; [rewrite upd_length; auto|]. split.
        * intros a c Ha Hc. rewrite nth_upd by auto. destruct (Nat.eqb_spec ((a - cut) * n + c) ((g - cut) * n + i)) as [E'|]; [nia|]. apply R1; auto.
        * intros c Hc. rewrite nth_upd by auto. destruct (Nat.eqb_spec ((g - cut) * n + c) ((g - cut) * n + i)) as [E'|].
          -- replace c with i by lia. apply H2. lia.
          -- apply R2. lia.
      + exists q'. split; auto. split; auto. intros a c Ha Hc. destruct (Nat.eq_dec a g) as [->|]; [apply H2'; auto|apply H1'; auto; lia].
    - exists q. split; auto.
  Qed.
End Src.

(** The last loop: the sum of the moments, zero elsewhere. *)
Lemma sum_loop N size V e : N <= size -> N <= length V -> N <= length e ->
  for_ 0 N (repeat 0%R size) (fun i o => do a <- rd V i; do b <- rd e i; wr o i (a + b)%R) =
  Ok (map (fun i => nth i V 0 + nth i e 0)%R (seq 0 N) ++ repeat 0%R (size - N)).
Proof.
  intros H1 H2 H3.
  destruct (@for_inv _ (fun j o => length o = size /\ forall i, nth i o 0%R = if i <? j then (nth i V 0 + nth i e 0)%R else 0%R)
    0 N (repeat 0%R size) (fun i o => do a <- rd V i; do b <- rd e i; wr o i (a + b)%R)) as (o & E & L & H); [lia|..].
  - split; [apply repeat_length|]. intros i. rewrite nth_repeat. replace (i <? 0) with false by (symmetry; apply Nat.ltb_ge; lia). auto.
  - intros i o Hi [L H]. rewrite (@rd_ok _ V i 0%R), (@rd_ok _ e i 0%R) by lia. cbn [bind]. rewrite wr_ok by lia. eexists. split; [reflexivity|].
    split; [rewrite upd_length; auto|]. intros j. rewrite nth_upd by lia. destruct (Nat.eqb_spec j i) as [->|].
    + rewrite (proj2 (Nat.ltb_lt i (S i))) by lia. auto.
    + rewrite H. destruct (Nat.ltb_spec j i), (Nat.ltb_spec j (S i)); auto; lia.
  - rewrite E. f_equal. apply (nth_ext _ _ 0%R 0%R).
    + rewrite app_length, map_length, seq_length, repeat_length. lia.
    + intros i Hi. rewrite H. destruct (Nat.ltb_spec i N) as [Li|Li].
      * rewrite app_nth1 by (rewrite map_length, seq_length; auto). symmetry. apply nth_error_nth. rewrite nth_error_map.
        rewrite (nth_error_nth' _ 0) by (rewrite seq_length; auto). rewrite seq_nth by auto. auto.
      * rewrite app_nth2 by (rewrite map_length, seq_length; auto). rewrite nth_repeat. auto.
Qed.

(** ** MGDSA *)
Lemma cut_sum G cut (a : nat -> R) : cut <= G -> (forall q, q < cut -> a q = 0%R) -> rsum G a = rsum (G - cut) (fun q => a (cut + q)).
Proof.
  intros H Z. replace G with (cut + (G - cut)) at 1 by lia. rewrite rsum_split. rewrite rsum_zero by auto. ring.
Qed.
Section Main.
  Variables (L : loss) (x : src) (f : fis) (srt : list triplet -> list triplet).
  Let m := l_mesh L.
  Let n := ncells m.
  Let G := ng (l_mat L).
  Let cut := l_cut L.
  Let N := active L * n.
  Hypothesis SRT : is_sort srt.
  Hypothesis LK : loss_ok L.
  Hypothesis AF : l_adj L = false.
  Hypothesis SF : l_sf L = 0.
  Hypothesis K1 : l_keff L = 1%R.
  Hypothesis DE : describes x L.
  Hypothesis FS : l_fis L = true -> fsrc f = x.

  Definition births (phi : nat -> nat -> R) (p c : nat) : R :=
    rsum (active L) (fun q => birth false (l_mat L) (cut + p) (cut + q) (mt m c) * phi q c)%R.

  Lemma dsa_general : exists C, build srt (loss_caps L) (loss_ops L) = Ok C /\
    forall lin, solves C N lin -> forall Vm Vb, length Vm = N ->
    exists u y, mgdsa_apply x f (l_fis L) cut lin (length (Vm ++ Vb)) (Vm ++ Vb) = Ok (u ++ repeat 0%R (length Vb)) /\ length u = N /\
      multiply C u = Ok y /\ length y = N /\
      forall p c, p < active L -> c < n -> part n y p c =
        (leakage m (l_J L (part n Vm) p) c + st (l_mat L) (cut + p) (mt m c) * part n Vm p c +
          (if l_fis L then (fscale f - 1) * births (part n Vm) p c else 0))%R.
  Proof.
    destruct (loss_builds LK SRT) as (C & HB & HC). exists C. split; auto. intros lin LN Vm Vb HV.
    destruct DE as (PX & EM & EA & EC & EK). fold m n in EC, EK. rewrite AF in EA.
    assert (HA : active L = G - cut) by (unfold active; rewrite AF; auto).
    destruct LK as (MG & Hcut & MT & DP & SS & BC & BA). fold cut G in Hcut. fold m n in MT.
    unfold mgdsa_apply. rewrite EC, EM, EA. cbn [active_groups]. fold G n.
    destruct (@dsa_fluxes_ok x cut (Vm ++ Vb)) as (phi & -> & T & P); [rewrite EM; fold G; lia|rewrite EM, EC, app_length, HV; fold G; unfold N; rewrite HA; lia|].
    rewrite EM, EC in T, P. fold G in T, P. cbn [bind].
    assert (P1 : forall p c, p < G - cut -> c < n -> phi_of phi (cut + p) c = part n Vm p c).
    { intros p c Hp Hc. rewrite P by auto. rewrite (proj2 (Nat.leb_le cut (cut + p))), (proj2 (Nat.ltb_lt (cut + p) G)) by lia. cbn [andb].
      rewrite app_nth1 by (rewrite HV; unfold N; rewrite HA; nia). unfold part. f_equal. nia. }
    destruct (@dsa_source_ok x cut phi) with (f := f) (inc := l_fis L) as (q & Eq & Lq & Q); auto; try (rewrite EM, ?EC; auto; fail).
    { rewrite EM, EC. apply table_flux. auto. }
    { intros gp c Hg Hc. rewrite EC in Hc. rewrite P by auto. rewrite (proj2 (Nat.leb_gt cut gp)) by lia. auto. }
    rewrite Eq. cbn [bind]. rewrite EC, EM in Lq, Q. fold G in Lq, Q.
    assert (LqN : length q = N) by (unfold N; rewrite HA, Lq; lia).
    destruct (LN q LqN) as (e & -> & Le & Me). cbn [bind].
    replace (n * (G - cut)) with N by (unfold N; rewrite HA; lia).
    rewrite sum_loop by (rewrite ?app_length; lia). rewrite app_length, HV. replace (N + length Vb - N) with (length Vb) by lia.
    set (u := map (fun i => nth i (Vm ++ Vb) 0 + nth i e 0)%R (seq 0 N)).
    assert (Lu : length u = N) by (unfold u; rewrite map_length, seq_length; auto).
    assert (Hu : forall i, nth i u 0%R = (nth i Vm 0 + nth i e 0)%R).
    { intros i. destruct (Nat.lt_ge_cases i N) as [Hi|Hi].
      - apply nth_error_nth. unfold u. rewrite nth_error_map, (nth_error_nth' _ 0) by (rewrite seq_length; auto). rewrite seq_nth by auto. cbn [option_map Nat.add].
        rewrite app_nth1 by lia. auto.
      - rewrite !nth_overflow by lia. ring. }
    destruct (HC e Le) as (q' & Me' & _ & He). rewrite Me in Me'. injection Me' as <-.
    destruct (HC u Lu) as (y & My & Ly & Hy). exists u, y. do 4 (split; auto). intros p c Hp Hc.
    fold m n in Hy, He. rewrite Hy by auto.
    assert (Hw : forall s, l_J L (part n u) p c s = (l_J L (part n Vm) p c s + l_J L (part n e) p c s)%R).
    { intros s. unfold l_J. fold m. rewrite (@cur_lin m (l_be L) 1 1 (l_D L (first_group L + p)) (part n Vm p) (part n e p) (part n u p)); [ring|].
      intros c'. unfold part. rewrite Hu. ring. }
    assert (LE : leakage m (l_J L (part n u) p) c = (leakage m (l_J L (part n Vm) p) c + leakage m (l_J L (part n e) p) c)%R).
    { unfold leakage. rewrite <- rsum_plus. apply rsum_ext. intros a _. rewrite !Hw. unfold Rdiv. ring. }
    assert (RE : reactions L (part n u) p c = (reactions L (part n Vm) p c + reactions L (part n e) p c)%R).
    { unfold reactions. rewrite SF. cbn [Nat.eqb].
      assert (X : forall a, rsum (active L) (fun q => a q * part n u q c)%R = (rsum (active L) (fun q => a q * part n Vm q c) + rsum (active L) (fun q => a q * part n e q c))%R).
      { intros a. rewrite <- rsum_plus. apply rsum_ext. intros i _. unfold part. rewrite Hu. ring. }
      rewrite !X. replace (part n u p c) with (part n Vm p c + part n e p c)%R by (unfold part; rewrite Hu; ring). destruct (l_fis L); ring. }
    specialize (He p c Hp Hc). rewrite LE, RE. unfold part in He at 1. 
    assert (Q' := Q (cut + p) c). replace (cut + p - cut) with p in Q' by lia. rewrite Nat.add_comm in He. rewrite Q' in He by (auto; lia).
    assert (FG : first_group L = cut) by (unfold first_group; rewrite AF; auto).
    assert (RV : reactions L (part n Vm) p c = (st (l_mat L) (cut + p) (mt m c) * part n Vm p c -
      (rsum (active L) (fun q => into false (l_mat L) (cut + p) (cut + q) (mt m c) * part n Vm q c) + (if l_fis L then births (part n Vm) p c else 0)))%R).
    { unfold reactions. rewrite SF, K1, AF, FG. cbn [Nat.eqb]. fold m. unfold births. destruct (l_fis L); [rewrite Rinv_1|]; ring. }
    assert (TS : total_source x phi f (l_fis L) (cut + p) c =
      (rsum (active L) (fun q => into false (l_mat L) (cut + p) (cut + q) (mt m c) * part n Vm q c) + (if l_fis L then fscale f * births (part n Vm) p c else 0))%R).
    { unfold total_source, scatter_sum, fission_sum. rewrite EM. fold G. rewrite !(@cut_sum G cut); try lia.
      - rewrite <- HA. f_equal.
        + apply rsum_ext. intros i Hi. cbv beta. unfold all_groups, transfer_xs, into. rewrite EA, EM, EK, P1 by (auto; lia). ring.
        + destruct (l_fis L); auto. f_equal. unfold births. apply rsum_ext. intros i Hi. cbv beta. unfold all_groups, fission_xs, birth. rewrite EA, EM, EK, P1 by (auto; lia). ring.
      - intros i Hi. unfold all_groups. rewrite P by auto. rewrite (proj2 (Nat.leb_gt cut i)) by lia. cbn [andb]. ring.
      - intros i Hi. unfold all_groups. rewrite P by auto. rewrite (proj2 (Nat.leb_gt cut i)) by lia. cbn [andb]. ring. }
    rewrite RV. rewrite TS in He. destruct (l_fis L); lra.
  Qed.
End Main.
