(** * Source_Props *)
From Verif Require Import Base BaseR Loop Material_Model Material_Spec Material_Proofs Source_Model Source_Spec
  Source_Proofs SourceAll_Proofs.
Open Scope nat_scope.

(** A two-group problem with upscatter and fission on two cells. *)
Definition case_raw : mtl :=
  run_ops (material_new 1 2) [SetS 0 0 1 1%R; SetS 0 1 0 2%R; SetS 0 0 0 3%R; Set_ FCHI 0 0 1%R; Set_ FSF 0 1 5%R].
Definition case_src (a : bool) : src :=
  {| cells := 2; mat := finalize case_raw; mmap := [0; 0]; adj := a; flux := [[1; 2]; [3; 4]]%R |}.
Example case_problem a : problem (case_src a) /\ nonneg_scatter case_raw.
Proof.
  split.
  - split; [cbn; lia|]. split.
    + intros [|[|c]] Hc; cbn in *; lia.
    + split; [reflexivity|]. intros [|[|g]] Hg; cbn in *; lia.
  - cbn. repeat apply set_scatter_nonneg; try lra; try apply new_nonneg.
Qed.
Example case_bounds : lo (case_src false) 0 = 0 /\ hi (case_src false) 0 = 1 /\
  lo (case_src true) 0 = 1 /\ hi (case_src true) 0 = 0.
Proof.
  assert (P2 : positive 2 = true) by (apply positive_iff; lra).
  assert (P3 : positive 3 = true) by (apply positive_iff; lra).
  unfold lo, hi, case_src. repeat split; cbn -[positive]; unfold set3; cbn -[positive];
    rewrite ?positive_one, ?positive_zero, ?P2, ?P3; reflexivity.
Qed.

(** C42 *)
Theorem C42_all_groups :
  forall x m g s,
  problem x -> mat x = finalize m -> nonneg_scatter m -> g < ng (mat x) -> cells x <= length s ->
  exists s1 s2,
    scat_within x g (nth g (flux x) []) s = Ok s1 /\ scat_in x g s1 = Ok s2 /\
    added (cells x) (scatter_sum x (flux x) all_groups g) s s2.
Proof. exact @scatter_all_groups. Qed.
Print Assumptions C42_all_groups.
(** Sources with a cutoff: the cutoff must lie between the bounds of the group. *)
Theorem C42_cutoff_partial :
  forall x m g cutoff phi s,
  problem x -> mat x = finalize m -> nonneg_scatter m -> g < ng (mat x) -> cells x <= length s ->
  flux_ok (cells x) (ng (mat x)) phi ->
  (if adj x then hi x g <= cutoff <= lo x g else lo x g <= cutoff <= hi x g) ->
  exists s1 s2,
    scat_down x g cutoff s = Ok s1 /\ scat_total x g cutoff phi s1 = Ok s2 /\
    added (cells x) (fun c => scatter_sum x (flux x) (below x cutoff) g c +
                              scatter_sum x phi (fun gp => negb (below x cutoff gp)) g c)%R s s2.
Proof. exact @scatter_cutoff. Qed.
Print Assumptions C42_cutoff_partial.
Theorem C42_cutoff_refuted :
  problem w_src /\ nonneg_scatter w_mat /\
  exists s1 s2, scat_down w_src 2 1 [0%R] = Ok s1 /\ scat_total w_src 2 1 (flux w_src) s1 = Ok s2 /\
    (nth 0 s2 0 = 2)%R /\ (scatter_sum w_src (flux w_src) all_groups 2 0 = 1)%R.
Proof. exact @scatter_cutoff_twice. Qed.
Print Assumptions C42_cutoff_refuted.
(** Negative transfers are outside the bounds computed by finalize. *)
Theorem C42_negative_refuted :
  problem n_src /\
  (exists s, scat_within n_src 0 (nth 0 (flux n_src) []) [0%R] = Ok [s] /\ scat_in n_src 0 [s] = Ok [0%R]) /\
  (scatter_sum n_src (flux n_src) all_groups 0 0 = -1)%R.
Proof. exact @scatter_negative_dropped. Qed.
Print Assumptions C42_negative_refuted.
Example C42_case :
  scatter_sum (case_src false) (flux (case_src false)) all_groups 0 1 = (10)%R /\
  scatter_sum (case_src true) (flux (case_src true)) all_groups 0 1 = (14)%R /\
  lo (case_src false) 0 <= 1 <= hi (case_src false) 0.
Proof.
  destruct case_bounds as (-> & -> & _). unfold scatter_sum, transfer_xs, phi_of, all_groups. cbn. unfold set3. cbn.
  repeat split; try lra; lia.
Qed.

(** C43 *)
Theorem C43_paths :
  forall x k g s,
  problem (fsrc x) -> cells (fsrc x) <= length (dens x) ->
  length (fsource x) = ng (mat (fsrc x)) ->
  (forall g, g < ng (mat (fsrc x)) -> length (nth g (fsource x) []) = cells (fsrc x)) ->
  g < ng (mat (fsrc x)) -> cells (fsrc x) <= length s ->
  exists x1 x2 s',
    fis_update x = Ok x1 /\ fis_setup_outer x1 k = Ok x2 /\
    fis_total (fis_set_scale x k) g (flux (fsrc x)) s = Ok s' /\
    added (cells (fsrc x)) (fun c => nth c (nth g (fsource x2) []) 0%R) s s' /\
    (forall c, c < cells (fsrc x) ->
       (nth c (nth g (fsource x2) []) 0 = k * fission_sum (fsrc x) (flux (fsrc x)) all_groups g c)%R).
Proof. exact @fission_paths. Qed.
Print Assumptions C43_paths.
Theorem C43_parts :
  forall x g s,
  problem (fsrc x) -> g < ng (mat (fsrc x)) -> cells (fsrc x) <= length s ->
  exists s1 s2,
    fis_within x g (nth g (flux (fsrc x)) []) s = Ok s1 /\ fis_in x g s1 = Ok s2 /\
    fis_total x g (flux (fsrc x)) s = Ok s2 /\
    added (cells (fsrc x)) (fun c => fscale x * fission_sum (fsrc x) (flux (fsrc x)) all_groups g c)%R s s2.
Proof. exact @fission_parts. Qed.
Print Assumptions C43_parts.
Theorem C43_linear :
  forall x k1 k2 g,
  problem (fsrc x) -> g < ng (mat (fsrc x)) ->
  exists s1 s2 s3,
    let z := repeat 0%R (cells (fsrc x)) in
    fis_total (fis_set_scale x k1) g (flux (fsrc x)) z = Ok s1 /\
    fis_total (fis_set_scale x k2) g (flux (fsrc x)) z = Ok s2 /\
    fis_total (fis_set_scale x (k1 + k2)) g (flux (fsrc x)) z = Ok s3 /\
    forall c, c < cells (fsrc x) -> (nth c s3 0 = nth c s1 0 + nth c s2 0)%R /\
      (k1 * nth c s2 0 = k2 * nth c s1 0)%R.
Proof. exact @fission_linear. Qed.
Print Assumptions C43_linear.
Theorem C43_initial_density :
  forall x,
  problem (fsrc x) -> length (dens x) = cells (fsrc x) ->
  (forall g k, 0 <= nsf (mat (fsrc x)) g k)%R ->
  let tot := rsum (cells (fsrc x)) (fun c => rsum (ng (mat (fsrc x))) (fun g => nsf (mat (fsrc x)) g (mat_of (fsrc x) c))) in
  (0 < tot)%R ->
  exists x', fis_initialize x = Ok x' /\ sumR (dens x') = 1%R /\
    forall c, c < cells (fsrc x) ->
      (nth c (dens x') 0 * tot = rsum (ng (mat (fsrc x))) (fun g => nsf (mat (fsrc x)) g (mat_of (fsrc x) c)))%R.
Proof. exact @fis_initialize_ok. Qed.
Print Assumptions C43_initial_density.
Example C43_case : let x := fis_new (case_src false) in
  problem (fsrc x) /\ cells (fsrc x) <= length (dens x) /\ length (fsource x) = ng (mat (fsrc x)) /\
  (forall g, g < ng (mat (fsrc x)) -> length (nth g (fsource x) []) = cells (fsrc x)) /\
  fission_sum (fsrc x) (flux (fsrc x)) all_groups 0 1 = 20%R.
Proof.
  cbv zeta. split; [apply case_problem|]. split; [cbn; lia|]. split; [reflexivity|]. split.
  - intros [|[|g]] Hg; cbn in *; auto; lia.
  - unfold fission_sum, fission_xs, phi_of, all_groups. cbn. unfold set2. cbn. lra.
Qed.

(** C47 *)
Theorem C47_clear_scale_refuted :
  state_shaped 2 two_moments /\
  (exists x', state_clear two_moments = Ok x' /\ ~ every_moment (fun _ _ v => v = 0%R) x') /\
  (exists x', state_scale two_moments 2 = Ok x' /\
     ~ every_moment (fun g i v => v = (nth i (nth g (moments two_moments) []) 0 * 2)%R) x').
Proof. exact @clear_scale_two. Qed.
Print Assumptions C47_clear_scale_refuted.
Theorem C47_clear_scale_partial :
  forall x f,
  state_shaped 1 x ->
  (exists x', state_clear x = Ok x' /\ every_moment (fun _ _ v => v = 0%R) x') /\
  (exists x', state_scale x f = Ok x' /\
     every_moment (fun g i v => v = (nth i (nth g (moments x) []) 0 * f)%R) x').
Proof. exact @clear_scale_one. Qed.
Print Assumptions C47_clear_scale_partial.
Theorem C47_clear_zeroth_partial :
  forall x nmom,
  1 <= nmom -> state_shaped nmom x ->
  exists x', state_clear x = Ok x' /\ state_shaped nmom x' /\
    (forall g i, g < sgroups x -> i < scells x -> mom2 (moments x') g i = 0%R) /\
    (forall g i, g < sgroups x -> scells x <= i -> mom2 (moments x') g i = mom2 (moments x) g i) /\
    (store_psi x = true -> forall g a i, g < sgroups x -> a < sangles x -> i < scells x -> psi3 (psi x') g a i = 0%R).
Proof. exact @clear_zeroth. Qed.
Print Assumptions C47_clear_zeroth_partial.
Theorem C47_scale_zeroth_partial :
  forall x f nmom,
  1 <= nmom -> state_shaped nmom x ->
  exists x', state_scale x f = Ok x' /\ state_shaped nmom x' /\
    (forall g i, g < sgroups x -> i < scells x -> mom2 (moments x') g i = (mom2 (moments x) g i * f)%R) /\
    (forall g i, g < sgroups x -> scells x <= i -> mom2 (moments x') g i = mom2 (moments x) g i) /\
    (store_psi x = true -> forall g a i, g < sgroups x -> a < sangles x -> i < scells x ->
       psi3 (psi x') g a i = (psi3 (psi x) g a i * f)%R).
Proof. exact @scale_zeroth. Qed.
Print Assumptions C47_scale_zeroth_partial.
Example C47_case : state_shaped 4 (state_new 2 3 4 5 true).
Proof. apply new_state_shaped. Qed.

(** C76 *)
Theorem C76_complete_source :
  forall x m mtod g angle s,
  sweep_ready x -> mat (ssrc x) = finalize m -> nonneg_scatter m -> g < ng (mat (ssrc x)) ->
  cells (ssrc x) <= length s ->
  exists x1 x2 s',
    build_fixed_with_scatter x g = Ok x1 /\
    build_within_group_scatter x1 g (nth g (flux (ssrc x)) []) = Ok x2 /\
    sweep_source x2 mtod g angle s = Ok s' /\
    forall c, c < cells (ssrc x) -> nth c s' 0%R =
      (mtod * (external x g c + explicit_fission x g c + implicit_fission x all_groups g c +
               scatter_sum (ssrc x) (flux (ssrc x)) all_groups g c) + discrete x g angle c)%R.
Proof. exact @complete_source. Qed.
Print Assumptions C76_complete_source.
Example C76_case : sweep_ready
  {| ssrc := case_src false; ext := [fun c g => INR (c + g)]; dext := [fun c g a => INR a];
     fiss := Some (fis_new (case_src false)); implicit := true; fixed := [7; 7]%R; scat := [8; 8]%R |}.
Proof.
  split; [apply case_problem|]. split; [cbn; lia|]. split; [cbn; lia|]. split.
  - intros q Hq. inversion Hq; subst. split; [reflexivity|]. split; [reflexivity|].
    intros [|[|g]] Hg; cbn in *; lia.
  - intros _. discriminate.
Qed.
