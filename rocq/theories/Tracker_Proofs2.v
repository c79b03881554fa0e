From Verif Require Import Base BaseR Util_Model Mesh_Model Mesh_Spec Csg_Model Csg_Spec Csg_Proofs Pin_Model Pin_Spec Pin_Proofs7 Tracker_Model Tracker_Spec Tracker_Proofs.
Set Implicit Arguments. Unset Strict Implicit.
Open Scope R_scope.

(** ** Intersections of a tree *)
Lemma shift_shift r u w : shift_ray (shift_ray r u) w = shift_ray r (padd u w).
Proof. unfold shift_ray. cbn. f_equal. apply point_eq; cbn; ring. Qed.
Lemma shift_zero r : shift_ray r (P3 0 0 0) = r.
Proof. destruct r as [o d]. unfold shift_ray. cbn. f_equal. apply point_eq; cbn; ring. Qed.
Lemma at_shift r u t : at_distance (shift_ray r u) t = psub (at_distance r t) u.
Proof. unfold at_distance, shift_ray. apply point_eq; cbn; ring. Qed.

Lemma tree_hits srt : is_psort srt -> forall n r u T, unit_ray r ->
  exists ts, intersections srt n (shift_ray r u) T = map (at_distance (shift_ray r u)) ts /\ StronglySorted Rle ts /\
  forall t, In t ts <-> exists s o, In (s, o) (leaves n u) /\ In t (hit_distances s (shift_ray r o) T).
Proof.
  intros HS. induction n as [s sn|a IHa b IHb|a IHa b IHb|a IHa b IHb|n IH w]; intros r u T U.
  1:{ cbn [intersections leaves]. exists (hit_distances s (shift_ray r u) T). split; [reflexivity|]. split; [apply hit_sorted|].
      intros t. split; [intros H; exists s, u; cbn; auto|]. intros (s' & o & [H|[]] & K). injection H as <- <-. auto. }
  1-3: destruct (IHa r u T U) as (ta & Ea & Sa & Ia); destruct (IHb r u T U) as (tb & Eb & Sb & Ib); cbn [intersections leaves]; rewrite Ea, Eb, <- map_app;
    destruct (HS (origin (shift_ray r u)) (map (at_distance (shift_ray r u)) (ta ++ tb))) as [PM SM]; apply Permutation_sym in PM;
    destruct (Permutation_map_inv _ _ PM) as (ts & E & PT); exists ts; split; [exact E|]; split;
    [ rewrite E in SM; assert (PS : forall t, In t ts -> 0 < t)
        by (intros t Ht; apply (Permutation_in _ (Permutation_sym PT)) in Ht; apply in_app_iff in Ht; rewrite Ia, Ib in Ht; destruct Ht as [(s & o & _ & H)|(s & o & _ & H)]; apply hit_sorted in H; tauto);
      clear - SM PS U; induction ts as [|t ts IH]; constructor;
      [ apply IH; [cbn in SM; inversion SM; auto|intros; apply PS; cbn; auto]
      | apply Forall_forall; intros x Hx; cbn [map] in SM; inversion SM as [|? ? S1 F1]; subst; rewrite Forall_forall in F1; specialize (F1 (at_distance (shift_ray r u) x) (in_map _ _ _ Hx));
        rewrite !distance_along in F1 by (apply Rlt_le, PS; cbn; auto); unfold unit_ray in U; cbn [shift_ray direction] in F1; rewrite U, sqrt_1, !Rmult_1_r in F1; exact F1 ]
    | intros t; transitivity (In t (ta ++ tb)); [split; apply Permutation_in; [apply Permutation_sym|]; auto|]; rewrite in_app_iff, Ia, Ib; split;
      [ intros [(s & o & H & K)|(s & o & H & K)]; exists s, o; rewrite in_app_iff; auto
      | intros (s & o & H & K); apply in_app_iff in H; destruct H as [H|H]; [left|right]; exists s, o; auto ] ].
  cbn [intersections leaves]. change {| origin := psub (origin (shift_ray r u)) w; direction := direction (shift_ray r u) |} with (shift_ray (shift_ray r u) w). rewrite shift_shift.
  destruct (IH r (padd u w) T U) as (ts & E & S & I). exists ts. split; [|split; auto]. rewrite E, map_map. apply map_ext. intros t. rewrite !at_shift. apply point_eq; cbn; ring.
Qed.

(** Membership changes only at a hit. *)
Lemma contains_leaves n : forall u p q, (forall s o, In (s, o) (leaves n u) -> sense s (psub p o) = sense s (psub q o)) -> contains n (psub p u) = contains n (psub q u).
Proof.
  induction n as [s sn|a IHa b IHb|a IHa b IHb|a IHa b IHb|n IH w]; intros u p q H; cbn [contains leaves] in *.
  - f_equal. apply H. cbn; auto.
  - f_equal; [apply IHa|apply IHb]; intros; apply H; apply in_app_iff; auto.
  - f_equal; [apply IHa|apply IHb]; intros; apply H; apply in_app_iff; auto.
  - f_equal; [apply IHa|f_equal; apply IHb]; intros; apply H; apply in_app_iff; auto.
  - specialize (IH (padd u w) p q H). replace (psub (psub p u) w) with (psub p (padd u w)) by (apply point_eq; cbn; ring).
    replace (psub (psub q u) w) with (psub q (padd u w)) by (apply point_eq; cbn; ring). auto.
Qed.
Lemma contains_change n y T ts : (forall s o, In (s, o) (leaves n (P3 0 0 0)) -> reg_ray s (shift_ray y o)) ->
  (forall t, In t ts <-> exists s o, In (s, o) (leaves n (P3 0 0 0)) /\ In t (hit_distances s (shift_ray y o) T)) ->
  forall t u, 0 < t < u -> u <= T -> contains n (at_distance y t) <> contains n (at_distance y u) -> exists h, In h ts /\ t <= h <= u.
Proof.
  intros HR HI t u Ht Hu D.
  destruct (Exists_dec (fun h => t <= h <= u) ts) as [E|E].
  { intros h. destruct (Rle_dec t h), (Rle_dec h u); [left; auto|right; lra..]. }
  { apply Exists_exists in E. destruct E as (h & A & B). eauto. }
  exfalso. apply D.
  replace (at_distance y t) with (psub (at_distance y t) (P3 0 0 0)) by (apply point_eq; cbn; ring). replace (at_distance y u) with (psub (at_distance y u) (P3 0 0 0)) by (apply point_eq; cbn; ring).
  apply contains_leaves. intros s o Hl. destruct (Bool.bool_dec (sense s (psub (at_distance y t) o)) (sense s (psub (at_distance y u) o))) as [e|N]; auto.
  exfalso. apply E. rewrite <- !at_shift in N. destruct (sense_change (HR s o Hl) Ht Hu N) as (h & A & B). apply Exists_exists. exists h. split; auto. apply HI. exists s, o. auto.
Qed.

(** ** Pieces of one region *)
Fixpoint gaps (c : R -> bool) (ts : list R) : list (R * R) :=
  match ts with
  | u :: ((v :: _) as t) => if Rlt_dec (v - u) (/ 10 ^ 12) then gaps c t else if c ((u + v) / 2) then (u, v) :: gaps c t else gaps c t
  | _ => []
  end.
Definition mk (y : ray) (r : nat) (g : R * R) : mseg :=
  {| ms_mid := at_distance y ((fst g + snd g) / 2); ms_seg := {| sregion := r; slength := snd g - fst g |} |}.
Lemma soft_zero v : soft_equiv (Rabs v) 0 (/ 10 ^ 12) = if Rlt_dec (Rabs v) (/ 10 ^ 12) then true else false.
Proof.
  unfold soft_equiv. rewrite Rminus_0_r, Rabs_R0, Rmult_0_r, Rabs_Rabsolu. destruct (Rlt_dec (Rabs v) 0) as [H|H]; [pose proof (Rabs_pos v); lra|].
  destruct (Rlt_dec 0 tiny14) as [K|K]; [reflexivity|]. exfalso. apply K. unfold tiny14. apply Rinv_0_lt_compat, pow_lt. lra.
Qed.
Lemma pieces_cons reg r p q t : pieces reg r (p :: q :: t) =
  (do rest <- pieces reg r (q :: t); if soft_equiv (Rabs (distance p q)) 0 (/ 10 ^ 12) then Ok rest
   else do b <- region_contains reg (pscale (/ 2) (padd p q));
     Ok (if (b : bool) then {| ms_mid := pscale (/ 2) (padd p q); ms_seg := {| sregion := r; slength := distance p q |} |} :: rest else rest)).
Proof. reflexivity. Qed.
Lemma pieces_gaps reg n r y : unit_ray y -> rnode reg = Some n -> forall ts, StronglySorted Rle ts ->
  pieces reg r (map (at_distance y) ts) = Ok (map (mk y r) (gaps (fun t => contains n (at_distance y t)) ts)).
Proof.
  intros U E ts S. assert (RC : forall p, region_contains reg p = Ok (contains n p)).
  { intros p. unfold region_contains. rewrite E. destruct (have_bound reg); [destruct (_ && _)|]; auto. }
  induction S as [|u t S IH F]; [reflexivity|]. destruct t as [|v t]; [reflexivity|].
  cbn [map] in IH |- *. rewrite pieces_cons, IH. cbn [gaps]. cbn [bind]. rewrite soft_zero, dist_at by auto. rewrite Rabs_Rabsolu.
  inversion F as [|? ? Huv _]; subst. rewrite (Rabs_pos_eq (v - u)) by lra.
  destruct (Rlt_dec (v - u) (/ 10 ^ 12)); auto. rewrite mid_at, RC. cbn [bind]. destruct (contains n (at_distance y ((u + v) / 2))); auto.
Qed.

Section Gaps.
Context (c : R -> bool).
Lemma gaps_in ts : StronglySorted Rle ts -> forall u v, In (u, v) (gaps c ts) -> In u ts /\ In v ts /\ u < v /\ c ((u + v) / 2) = true /\ forall h, In h ts -> ~ (u < h < v).
Proof.
  assert (P : 0 < / 10 ^ 12) by (apply Rinv_0_lt_compat, pow_lt; lra).
  induction 1 as [|a t S IH F]; [intros ? ? []|]. destruct t as [|b t]; [intros ? ? []|]. intros u v H. cbn [gaps] in H.
  assert (AB : a <= b) by (inversion F; auto). assert (LE : forall h, In h (b :: t) -> b <= h) by (intros h [<-|Hh]; [lra|]; inversion S as [|? ? _ G]; subst; rewrite Forall_forall in G; auto).
  assert (K : In (u, v) (gaps c (b :: t)) -> In u (a :: b :: t) /\ In v (a :: b :: t) /\ u < v /\ c ((u + v) / 2) = true /\ forall h, In h (a :: b :: t) -> ~ (u < h < v)).
  { intros G. destruct (IH u v G) as (A & B & C & D & E). repeat split; auto; try (right; auto). intros h [<-|Hh]; auto. specialize (LE u A). lra. }
  destruct (Rlt_dec (b - a) (/ 10 ^ 12)); auto. destruct (c ((a + b) / 2)) eqn:EC; auto. destruct H as [H|H]; auto. injection H as <- <-.
  split; [left; auto|]. split; [right; left; auto|]. split; [lra|]. split; auto. intros h [<-|Hh]; [lra|]. specialize (LE h Hh). lra.
Qed.
Lemma gaps_sorted ts : StronglySorted Rle ts -> StronglySorted (fun g h => snd g <= fst h) (gaps c ts).
Proof.
  induction 1 as [|a t S IH F]; [constructor|]. destruct t as [|b t]; [constructor|]. cbn [gaps]. destruct (Rlt_dec (b - a) (/ 10 ^ 12)); auto. destruct (c ((a + b) / 2)); auto.
  constructor; auto. apply Forall_forall. intros [u v] H. cbn [fst snd]. destruct (gaps_in S H) as (A & _). destruct A as [<-|A]; [lra|]. inversion S as [|? ? _ G]; subst. rewrite Forall_forall in G. auto.
Qed.
Lemma gaps_cover ts : StronglySorted Rle ts -> (forall u v, In u ts -> In v ts -> u < v -> / 10 ^ 12 <= v - u) ->
  (forall t u, t < u -> (forall h, In h ts -> ~ (t <= h <= u)) -> (exists h, In h ts /\ h < t) -> (exists h, In h ts /\ u < h) -> c t = c u) ->
  forall x, c x = true -> ~ In x ts -> (exists h, In h ts /\ h < x) -> (exists h, In h ts /\ x < h) -> exists u v, In (u, v) (gaps c ts) /\ u < x < v.
Proof.
  intros S. induction S as [|a t S IH F]; intros AP CC x CX NX (h0 & H0 & L0) (h1 & H1 & L1); [destruct H0|].
  destruct t as [|b t]; [exfalso; destruct H0 as [<-|[]]; destruct H1 as [<-|[]]; lra|].
  assert (LE : forall h, In h (b :: t) -> b <= h) by (intros h [<-|Hh]; [lra|]; inversion S as [|? ? _ G]; subst; rewrite Forall_forall in G; auto).
  assert (AL : forall h, In h (b :: t) -> a <= h) by (intros h Hh; rewrite Forall_forall in F; auto).
  cbn [gaps]. destruct (Rtotal_order x b) as [X|[->|X]]; [|exfalso; apply NX; right; left; auto|].
  - assert (AX : a < x). { destruct H0 as [<-|H0]; [auto|]. specialize (LE _ H0). lra. }
    destruct (Rlt_dec (b - a) (/ 10 ^ 12)) as [C|C]; [specialize (AP a b ltac:(left; auto) ltac:(right; left; auto) ltac:(lra)); lra|].
    assert (E : c ((a + b) / 2) = true).
    { rewrite <- CX. idtac.
      destruct (Rtotal_order ((a + b) / 2) x) as [O|[O|O]].
      - apply CC; auto; [|exists a; split; [left; auto|lra]|exists b; split; [right; left; auto|lra]]. intros h [<-|Hh]; [lra|]. specialize (LE h Hh). lra.
      - rewrite O; auto.
      - symmetry. apply CC; auto; [|exists a; split; [left; auto|lra]|exists b; split; [right; left; auto|lra]]. intros h [<-|Hh]; [lra|]. specialize (LE h Hh). lra. }
    rewrite E. exists a, b. split; [left; auto|lra].
  - assert (K : exists u v, In (u, v) (gaps c (b :: t)) /\ u < x < v).
    { apply IH; auto.
      - intros u v Hu Hv. apply AP; right; auto.
      - intros t0 u0 L NH (g0 & G0 & GL0) (g1 & G1 & GL1). apply CC; auto; [|exists g0; split; [right|]; auto|exists g1; split; [right|]; auto].
        intros h [<-|Hh]; auto. specialize (LE _ G0). specialize (AL b (or_introl eq_refl)). lra.
      - intros H. apply NX. right. auto.
      - exists b. split; [left; auto|lra].
      - destruct H1 as [<-|H1]; [specialize (AL b (or_introl eq_refl)); lra|]. eauto. }
    destruct K as (u & v & K & L). exists u, v. split; auto. destruct (Rlt_dec (b - a) (/ 10 ^ 12)); auto. destruct (c ((a + b) / 2)); auto. right. auto.
Qed.
End Gaps.
