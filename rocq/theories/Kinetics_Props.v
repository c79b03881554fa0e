(** * Kinetics_Props *)
From Verif Require Import Base BaseR Material_Model Kinetics_Model Kinetics_Spec Kinetics_Proofs.
Open Scope R_scope.

(** C48 *)
Theorem C48_exact :
  forall q p t h,
  (1 <= q <= 6)%nat -> (length p <= S q)%nat -> h <> 0 ->
  exists a, coefs q a /\
    derivable_pt_lim (peval p) t (bdf_rate a q h (peval p t) (fun j => peval p (t - INR (S j) * h))).
Proof. exact @bdf_exact. Qed.
Print Assumptions C48_exact.
Theorem C48_unsupported :
  forall q j,
  (q = 0 \/ 7 <= q)%nat -> bdf q j = UB.
Proof. exact @bdf_unsupported. Qed.
Print Assumptions C48_unsupported.

(** C49 *)
Theorem C49_source_partial :
  forall times src t,
  (1 <= length times)%nat -> increasing times ->
  exists v, linear_source times src t = Ok v /\ interpolates times src t v /\
    (forall i, (i < length times)%nat -> t = nth i times 0 -> v = src i) /\
    (forall i, (S i < length times)%nat -> nth i times 0 <= t <= nth (S i) times 0 -> between (src i) (src (S i)) v).
Proof. exact @linear_source_ok. Qed.
Print Assumptions C49_source_partial.
Theorem C49_source_range_partial :
  forall times src t lo hi,
  (1 <= length times)%nat ->
  (forall i, (i < length times)%nat -> lo <= src i <= hi) ->
  exists v, linear_source times src t = Ok v /\ lo <= v <= hi.
Proof. exact @linear_source_range. Qed.
Print Assumptions C49_source_range_partial.
Theorem C49_material_partial :
  forall times mats self t d,
  (1 <= length times)%nat -> length mats = length times -> increasing times ->
  exists x, linear_update times mats self t = Ok x /\
    (forall q m, defined q self -> (m < nm (kb self))%nat ->
       interpolates times (fun i => value q (nth i mats d) m) t (value q x m) /\
       (forall i, (i < length times)%nat -> t = nth i times 0 -> value q x m = value q (nth i mats d) m) /\
       (forall i, (S i < length times)%nat -> nth i times 0 <= t <= nth (S i) times 0 ->
          between (value q (nth i mats d) m) (value q (nth (S i) mats d) m) (value q x m))) /\
    vel x = vel self /\ lam x = lam self /\ np x = np self /\ ng (kb x) = ng (kb self) /\ nm (kb x) = nm (kb self).
Proof. exact @linear_material_ok. Qed.
Print Assumptions C49_material_partial.
Theorem C49_fission_refuted :
  exists times mats self t x y,
  increasing times /\ length mats = length times /\ positive_data self /\
  linear_update times mats self t = Ok x /\ td_update 1 x 1 1 false = Ok y /\
  nth 0 times 0 <= t <= nth 1 times 0 /\
  ~ between (nsf (kb (nth 0 mats self)) 0 0) (nsf (kb (nth 1 mats self)) 0 0) (nsf (kb y) 0 0).
Proof. exact @fission_refuted. Qed.
Print Assumptions C49_fission_refuted.
Theorem C49_velocity_refuted :
  exists times mats self t x,
  increasing times /\ length mats = length times /\ self = nth 0 mats self /\
  linear_update times mats self t = Ok x /\ t = nth 1 times 0 /\ vel x 0%nat <> vel (nth 1 mats self) 0%nat.
Proof. exact @velocity_refuted. Qed.
Print Assumptions C49_velocity_refuted.

(** C50 *)
Theorem C50_elimination :
  forall kcrit x n mt dt order states prec fd s0 C0,
  (1 <= order <= 6)%nat -> positive_data x -> 0 < dt -> map_ok x n mt ->
  history order (ng (kb x)) n states -> precursors_ok order x n prec -> (n <= length fd)%nat ->
  sized (ng (kb x)) n s0 -> sized (np x) n C0 ->
  exists a xs xn Cn s, coefs order a /\
    td_update kcrit x dt order true = Ok xs /\ td_update kcrit x dt order false = Ok xn /\
    build_moment xs n mt dt states prec order s0 = Ok s /\
    update_precursors xn n mt dt order fd prec C0 = Ok Cn /\
    (forall g m, (g < ng (kb x))%nat -> (m < nm (kb x))%nat -> nsf (kb xs) g m = nsf (kb xn) g m) /\
    (forall i c, (i < np x)%nat -> (c < n)%nat -> forall C,
       precursor_eq a order dt (beta x i (nth c mt 0%nat)) (lam x i) (nth c fd 0) C (fun j => at2 (nth j prec []) i c)
       <-> C = at2 Cn i c) /\
    (forall g c, (g < ng (kb x))%nat -> (c < n)%nat -> forall lk y,
       let m := nth c mt 0%nat in
       lk + st (kb xs) g m * y = chi (kb xs) g m * nth c fd 0 + at2 s g c <->
       flux_eq a order dt (vel x g) lk (st (kb x) g m) (prompt x g m) (nth c fd 0)
         (rsum (np x) (fun i => lam x i * chid x g i m * at2 Cn i c)) y (fun j => at2 (nth j states []) g c)).
Proof. exact @elimination. Qed.
Print Assumptions C50_elimination.
Theorem C50_elimination_angle :
  forall kcrit x n mt norm dt order psis prec fd s0 C0,
  (1 <= order <= 6)%nat -> positive_data x -> 0 < dt -> map_ok x n mt ->
  history order (ng (kb x)) n psis -> precursors_ok order x n prec -> (n <= length fd)%nat ->
  sized (ng (kb x)) n s0 -> sized (np x) n C0 ->
  exists a xs xn Cn s, coefs order a /\
    td_update kcrit x dt order true = Ok xs /\ td_update kcrit x dt order false = Ok xn /\
    build_discrete xs n mt norm dt psis prec order s0 = Ok s /\
    update_precursors xn n mt dt order fd prec C0 = Ok Cn /\
    (forall g c, (g < ng (kb x))%nat -> (c < n)%nat -> forall lk y,
       let m := nth c mt 0%nat in
       lk + st (kb xs) g m * y = norm * (chi (kb xs) g m * nth c fd 0) + at2 s g c <->
       flux_eq a order dt (vel x g) lk (st (kb x) g m) (norm * prompt x g m) (nth c fd 0)
         (norm * rsum (np x) (fun i => lam x i * chid x g i m * at2 Cn i c)) y (fun j => at2 (nth j psis []) g c)).
Proof. exact @elimination_angle. Qed.
Print Assumptions C50_elimination_angle.
Theorem C50_steady :
  forall kcrit x n mt dt order states prec phi C fd s0 C0 C1 xi,
  (1 <= order <= 6)%nat -> positive_data x -> 0 < dt -> map_ok x n mt -> (n <= length fd)%nat ->
  sized (ng (kb x)) n phi -> sized (ng (kb x)) n s0 -> sized (np x) n C0 -> sized (np x) n C1 ->
  td_update kcrit x 0 1 false = Ok xi -> init_precursors xi n mt fd C0 = Ok C ->
  (order <= length states)%nat -> (forall j, (j < order)%nat -> nth j states [] = phi) ->
  (order <= length prec)%nat -> (forall j, (j < order)%nat -> nth j prec [] = C) ->
  exists xs xn Cn s,
    td_update kcrit x dt order true = Ok xs /\ td_update kcrit x dt order false = Ok xn /\
    build_moment xs n mt dt states prec order s0 = Ok s /\
    update_precursors xn n mt dt order fd prec C1 = Ok Cn /\
    (forall i c, (i < np x)%nat -> (c < n)%nat -> at2 Cn i c = at2 C i c) /\
    (forall g c, (g < ng (kb x))%nat -> (c < n)%nat -> forall lk,
       let m := nth c mt 0%nat in
       lk + st (kb x) g m * at2 phi g c = (prompt x g m + rsum (np x) (fun i => chid x g i m * beta x i m)) * nth c fd 0 <->
       lk + st (kb xs) g m * at2 phi g c = chi (kb xs) g m * nth c fd 0 + at2 s g c).
Proof. exact @steady. Qed.
Print Assumptions C50_steady.
Theorem C50_angle_integral :
  forall x n mt norm dt ws order psi states prec s0 Ss g c,
  (1 <= order <= 6)%nat -> map_ok x n mt -> precursors_ok order x n prec ->
  norm * sumR ws = 1 -> length psi = length ws -> length Ss = length ws ->
  (forall a, (a < length ws)%nat -> history order (ng (kb x)) n (nth a psi [])) ->
  history order (ng (kb x)) n states ->
  (forall j h k, (j < order)%nat -> (h < ng (kb x))%nat -> (k < n)%nat ->
     at2 (nth j states []) h k = rsum (length ws) (fun a => nth a ws 0 * at2 (nth j (nth a psi []) []) h k)) ->
  sized (ng (kb x)) n s0 ->
  (forall a, (a < length ws)%nat -> build_discrete x n mt norm dt (nth a psi []) prec order s0 = Ok (nth a Ss [])) ->
  (g < ng (kb x))%nat -> (c < n)%nat ->
  exists s, build_moment x n mt dt states prec order s0 = Ok s /\ discrete_source ws Ss c g = Ok (at2 s g c).
Proof. exact @angle_integral. Qed.
Print Assumptions C50_angle_integral.
Theorem C50_material :
  forall kcrit x dt order syn,
  (1 <= order <= 6)%nat -> positive_data x ->
  exists y, td_update kcrit x dt order syn = Ok y /\
    ng (kb y) = ng (kb x) /\ nm (kb y) = nm (kb x) /\ np y = np x /\ vel y = vel x /\ lam y = lam x /\ beta y = beta x /\ chid y = chid x /\
    sa (kb y) = sa (kb x) /\ ss (kb y) = ss (kb x) /\ dc (kb y) = dc (kb x) /\ nu (kb y) = nu (kb x) /\
    forall g m, (g < ng (kb x))%nat -> (m < nm (kb x))%nat ->
      sf (kb y) g m = sf (kb x) g m / kcrit /\
      nsf (kb y) g m = nu (kb x) g m * sf (kb x) g m / kcrit /\
      st (kb y) g m = st (kb x) g m + (if syn then bcoef order 0 / (vel x g * dt) else 0) /\
      chi (kb y) g m = (if syn then (1 - rsum (np x) (fun i => beta x i m)) * chi (kb x) g m +
          rsum (np x) (fun i => lam x i * chid x g i m * dt * beta x i m / (bcoef order 0 + dt * lam x i)) else chi (kb x) g m).
Proof. exact @td_update_ok. Qed.
Print Assumptions C50_material.
Theorem C50_multiphysics :
  forall dt order rhs prev,
  (1 <= order <= 6)%nat -> dt <> 0 ->
  exists a y, coefs order a /\ update_physics dt order rhs prev = Ok y /\
    forall z, bdf_rate a order dt z prev = rhs <-> z = y.
Proof. exact @physics_ok. Qed.
Print Assumptions C50_multiphysics.

(** C51 *)
Theorem C51_history :
  forall X (stepf : R -> R -> nat -> bool -> (nat -> X) -> X -> res X) conv q maxit imp no_extrap h N heap ptrs init,
  reads_order stepf -> (1 <= q)%nat -> length ptrs = q -> NoDup ptrs ->
  match ts_solve stepf conv q maxit imp no_extrap h N heap ptrs init with
  | Ok (out, ptrs', heap', t) =>
      multistep stepf (fun f y => fixed_point f conv maxit y) q imp no_extrap h init N = Ok out /\
      length out = S N /\ t = INR N * h /\ length ptrs' = q /\ NoDup ptrs' /\
      (forall j, (j < Nat.min (S N) q)%nat -> heap' (nth j ptrs' 0%nat) = nth j out init)
  | Err => multistep stepf (fun f y => fixed_point f conv maxit y) q imp no_extrap h init N = Err
  | UB => multistep stepf (fun f y => fixed_point f conv maxit y) q imp no_extrap h init N = UB
  end.
Proof. exact @stepper_refines. Qed.
Print Assumptions C51_history.
Theorem C51_sources_read :
  forall x n mt norm dt states prec order s,
  build_moment x n mt dt states prec order s = build_moment x n mt dt (firstn order states) (firstn order prec) order s /\
  build_discrete x n mt norm dt states prec order s = build_discrete x n mt norm dt (firstn order states) (firstn order prec) order s.
Proof. exact @sources_read. Qed.
Print Assumptions C51_sources_read.
Theorem C51_precursors_read :
  forall x n mt dt order fd prev C,
  update_precursors x n mt dt order fd prev C = update_precursors x n mt dt order fd (firstn order prev) C.
Proof. exact @precursors_read. Qed.
Print Assumptions C51_precursors_read.
Theorem C51_fixed_point :
  forall X (f : X -> res X) conv n y z,
  (1 <= n)%nat -> fixed_point f conv n y = Ok z ->
  exists k u, (1 <= k <= n)%nat /\ iterate f (k - 1) y = Ok u /\ iterate f k y = Ok z /\ (conv z u = true \/ k = n) /\
    forall j v w, (1 <= j < k)%nat -> iterate f (j - 1) y = Ok v -> iterate f j y = Ok w -> conv w v = false.
Proof. exact @fixed_point_ok. Qed.
Print Assumptions C51_fixed_point.
Theorem C51_number_steps :
  forall final dt,
  0 < final -> 0 < dt ->
  let N := number_steps final dt None in final <= INR N * dt < final + dt /\ (1 <= N)%nat.
Proof. exact @number_steps_ok. Qed.
Print Assumptions C51_number_steps.
Theorem C51_number_steps_cap :
  forall final dt m,
  number_steps final dt (Some m) = Nat.min m (number_steps final dt None).
Proof. exact @number_steps_cap. Qed.
Print Assumptions C51_number_steps_cap.

(** C81 *)
Theorem C81_midpoint :
  forall a dt y0 yh y1 (f : R -> R),
  0 < dt -> coefs 1 a -> y1 = 2 * yh - y0 ->
  (bdf_rate a 1 (1 / 2 * dt) yh (fun _ => y0) = f yh <-> (y1 - y0) / dt = f ((y0 + y1) / 2)) /\ yh = (y0 + y1) / 2.
Proof. exact @midpoint. Qed.
Print Assumptions C81_midpoint.
Theorem C81_precursors :
  forall x n mt dt fd prev C Cn Cx i c,
  positive_data x -> 0 < dt -> map_ok x n mt -> (n <= length fd)%nat ->
  history 1 (np x) n prev -> sized (np x) n C ->
  update_precursors x n mt (1 / 2 * dt) 1 fd prev C = Ok Cn -> extrapolate_rows (np x) n (nth 0 prev []) Cn = Ok Cx ->
  (i < np x)%nat -> (c < n)%nat ->
  let old := at2 (nth 0 prev []) i c in let new := at2 Cx i c in
  (new - old) / dt = beta x i (nth c mt 0%nat) * nth c fd 0 - lam x i * ((old + new) / 2).
Proof. exact @midpoint_precursors. Qed.
Print Assumptions C81_precursors.
Theorem C81_rows :
  forall rows n prev cur,
  sized rows n prev -> sized rows n cur ->
  exists new, extrapolate_rows rows n prev cur = Ok new /\ sized rows n new /\
    forall g c, (g < rows)%nat -> (c < n)%nat -> at2 new g c = 2 * at2 cur g c - at2 prev g c.
Proof. exact @extrapolate_rows_ok. Qed.
Print Assumptions C81_rows.
Theorem C81_angular :
  forall fixup ws n psi0 psi phi,
  sized (length ws) n psi0 -> sized (length ws) n psi -> (n <= length phi)%nat ->
  exists psi' phi', extrapolate_discrete fixup ws n psi0 psi phi = Ok (psi', phi') /\ sized (length ws) n psi' /\ length phi' = length phi /\
    (forall a c, (a < length ws)%nat -> (c < n)%nat -> at2 psi' a c = if fixup then Rmax 0 (2 * at2 psi a c - at2 psi0 a c) else 2 * at2 psi a c - at2 psi0 a c) /\
    (forall c, (c < n)%nat -> nth c phi' 0 = rsum (length ws) (fun a => nth a ws 0 * at2 psi' a c)).
Proof. exact @extrapolate_discrete_ok. Qed.
Print Assumptions C81_angular.
Theorem C81_scalar :
  forall ws n psi0 psi phi0 phi,
  sized (length ws) n psi0 -> sized (length ws) n psi -> (n <= length phi)%nat ->
  (forall c, (c < n)%nat -> nth c phi0 0 = rsum (length ws) (fun a => nth a ws 0 * at2 psi0 a c)) ->
  (forall c, (c < n)%nat -> nth c phi 0 = rsum (length ws) (fun a => nth a ws 0 * at2 psi a c)) ->
  exists psi' phi', extrapolate_discrete false ws n psi0 psi phi = Ok (psi', phi') /\
    forall c, (c < n)%nat -> nth c phi' 0 = 2 * nth c phi 0 - nth c phi0 0.
Proof. exact @extrapolate_scalar. Qed.
Print Assumptions C81_scalar.

(** ** Cases *)
Example C48_case : exists a, coefs 2 a /\ bdf_rate a 2 (1 / 10) (peval [1; 0; 3] 1) (fun j => peval [1; 0; 3] (1 - INR (S j) * (1 / 10))) = 6.
Proof.
  exists (bcoef 2). split; [apply coefs_b; lia|]. unfold bdf_rate, bcoef. cbn. lra.
Qed.
Example C49_case : exists v, linear_source [0; 1; 3] (fun i => nth i [5; 7; 3] 0) 2 = Ok v /\ v = 5.
Proof.
  destruct (@linear_source_ok [0; 1; 3] (fun i => nth i [5; 7; 3] 0) 2) as (v & E & (_ & _ & I) & _).
  - cbn; lia.
  - intros i Hi. cbn in Hi. destruct i as [|[|i]]; cbn; [lra|lra|lia].
  - exists v. split; [exact E|]. specialize (I 1%nat ltac:(cbn; lia) ltac:(cbn; lra)). cbn in I. lra.
Qed.
(** one group, one precursor group, one cell *)
Definition kcase : kmtl := {| kb := base1 3 2; np := 1; vel := fun _ => 4; lam := fun _ => 1 / 10; beta := fun _ _ => 1 / 100; chid := fun _ _ _ => 1 |}.
Example C50_case : positive_data kcase /\ map_ok kcase 1 [0%nat] /\ history 2 (ng (kb kcase)) 1 [[[1]]; [[2]]] /\
  precursors_ok 2 kcase 1 [[[3]]; [[4]]] /\ sized (ng (kb kcase)) 1 [[0]] /\ sized (np kcase) 1 [[0]].
Proof.
  split. { split; intros; cbn; lra. }
  split. { split; [cbn; lia|]. intros c Hc. replace c with 0%nat by lia. cbn. lia. }
  assert (Z : forall v : R, sized 1 1 [[v]]). { intros v. split; [reflexivity|]. intros i Hi. replace i with 0%nat by lia. cbn. lia. }
  split. { split; [cbn; lia|]. intros j Hj. destruct j as [|[|j]]; [apply Z|apply Z|lia]. }
  split. { right. split; [cbn; lia|]. intros j Hj. destruct j as [|[|j]]; [apply Z|apply Z|lia]. }
  split; apply Z.
Qed.
(** a step that adds up the solutions it may read *)
Definition adder (t dt : R) (order : nat) (half : bool) (h : nat -> nat) (y : nat) : res nat :=
  Ok (fold_left (fun s j => (s + h j)%nat) (seq 0 order) 1%nat).
Example C51_case : reads_order adder /\
  exists p hp t, ts_solve adder (fun _ _ => true) 3 1 false true 1 4 (fun _ => 99%nat) [10%nat; 11%nat; 12%nat] 1%nat = Ok ([15%nat; 8%nat; 4%nat; 2%nat; 1%nat], p, hp, t).
Proof.
  split.
  - intros t dt order half h1 h2 y H. unfold adder. f_equal.
    assert (G : forall l s, (forall j, In j l -> (j < order)%nat) -> fold_left (fun s j => (s + h1 j)%nat) l s = fold_left (fun s j => (s + h2 j)%nat) l s).
    { induction l as [|j l IH]; intros s Hl; cbn; auto. rewrite H by (apply Hl; cbn; auto). apply IH. intros; apply Hl; cbn; auto. }
    apply G. intros j Hj. apply in_seq in Hj. lia.
  - do 3 eexists. reflexivity.
Qed.
Example C81_case : exists psi phi, extrapolate_discrete true [1; 2] 1 [[3]; [9]] [[5]; [4]] [0] = Ok (psi, phi) /\ nth 0 phi 0 = 7.
Proof.
  destruct (@extrapolate_discrete_ok true [1; 2] 1 [[3]; [9]] [[5]; [4]] [0]) as (psi & phi & E & _ & _ & V & W).
  - split; [reflexivity|]. intros i Hi. cbn in Hi. destruct i as [|[|i]]; cbn; lia.
  - split; [reflexivity|]. intros i Hi. cbn in Hi. destruct i as [|[|i]]; cbn; lia.
  - cbn; lia.
  - exists psi, phi. split; [exact E|]. rewrite W by lia. cbn [length rsum nth].
    rewrite !V by (cbn; lia). unfold at2. cbn [nth]. rewrite Rmax_right, Rmax_left by lra. lra.
Qed.
