(** * Diffusion_Props *)
From Verif Require Import Base BaseR Mesh_Model Mesh_Spec Material_Model Material_Spec Material_Proofs Matrix_Model Matrix_Spec Matrix_Proofs
  Diffusion_Model Diffusion_Spec Diffusion_Proofs.
Open Scope nat_scope.

(** C55 *)
Theorem C55_operator :
  forall srt L,
  is_sort srt -> loss_ok L ->
  let m := l_mesh L in let n := ncells m in
  exists C be, build srt (loss_caps L) (loss_ops L) = Ok C /\ is_albedo (dim m) (l_bc L) (l_zero L) be /\
    forall v, length v = active L * n -> exists y J, multiply C v = Ok y /\ length y = active L * n /\
      (forall p, p < active L -> fick m (fun c => dc (l_mat L) (first_group L + p) (mt m c)) be (part n v p) (J p)) /\
      (forall p c, p < active L -> c < n ->
         part n y p c = (leakage m (J p) c + reactions L (part n v) p c)%R) /\
      (forall p, p < active L ->
         rsum n (fun c => vol m c * part n y p c)%R =
         (outflow m (J p) + rsum n (fun c => vol m c * reactions L (part n v) p c))%R).
Proof. exact @loss_fick. Qed.
Print Assumptions C55_operator.
Theorem C55_symmetric :
  forall srt L,
  is_sort srt -> loss_ok L -> l_sf L <> 0 ->
  let m := l_mesh L in
  exists C, build srt (loss_caps L) (loss_ops L) = Ok C /\
    forall v w, length v = active L * ncells m -> length w = active L * ncells m ->
      exists y z, multiply C v = Ok y /\ multiply C w = Ok z /\ vdotv m (active L) w y = vdotv m (active L) v z.
Proof. exact @loss_symmetric. Qed.
Print Assumptions C55_symmetric.
Theorem C55_signs :
  forall srt L,
  is_sort srt -> loss_ok L -> l_fis L = false ->
  (forall g k, g < ng (l_mat L) -> k < nm (l_mat L) -> (0 < removal L g k)%R) ->
  let n := ncells (l_mesh L) in let N := active L * n in
  exists C, build srt (loss_caps L) (loss_ops L) = Ok C /\
    forall j, j < N -> exists y, multiply C (unit N j) = Ok y /\ length y = N /\
      (0 < nth j y 0)%R /\ forall i, i < N -> i <> j -> (nth i y 0 <= 0)%R.
Proof. exact @loss_signs. Qed.
Print Assumptions C55_signs.
Theorem C55_reflecting :
  forall srt L,
  is_sort srt -> loss_ok L -> reflecting (dim (l_mesh L)) (l_bc L) ->
  let m := l_mesh L in let n := ncells m in
  exists C, build srt (loss_caps L) (loss_ops L) = Ok C /\
    (forall v, length v = active L * n -> exists y, multiply C v = Ok y /\
       forall p, p < active L ->
         rsum n (fun c => vol m c * part n y p c)%R = rsum n (fun c => vol m c * reactions L (part n v) p c)%R) /\
    (exists y, multiply C (repeat 1%R (active L * n)) = Ok y /\
       forall p c, p < active L -> c < n -> part n y p c = reactions L (fun _ _ => 1%R) p c).
Proof. exact @loss_reflecting. Qed.
Print Assumptions C55_reflecting.
Theorem C55_within_group :
  forall srt W,
  is_sort srt -> wg_ok W ->
  let m := w_mesh W in let n := ncells m in
  exists C be, build srt (wg_caps W) (wg_ops W) = Ok C /\ is_albedo (dim m) (w_bc W) false be /\
    forall v, length v = n -> exists y J, multiply C v = Ok y /\ length y = n /\
      fick m (fun c => dc (w_mat W) (w_group W) (mt m c)) be (fun c => nth c v 0%R) J /\
      (forall c, c < n -> nth c y 0%R = (leakage m J c + wg_removal W c * nth c v 0)%R) /\
      (rsum n (fun c => vol m c * nth c y 0) = outflow m J + rsum n (fun c => vol m c * wg_removal W c * nth c v 0))%R.
Proof. exact @wg_fick. Qed.
Print Assumptions C55_within_group.
Theorem C55_within_group_definite :
  forall srt W,
  is_sort srt -> wg_ok W ->
  let m := w_mesh W in let n := ncells m in
  let ip := fun x y : list R => rsum n (fun c => vol m c * nth c x 0 * nth c y 0)%R in
  exists C, build srt (wg_caps W) (wg_ops W) = Ok C /\
    forall v w, length v = n -> length w = n -> exists y z, multiply C v = Ok y /\ multiply C w = Ok z /\
      ip w y = ip v z /\
      (rsum n (fun c => vol m c * wg_removal W c * (nth c v 0 * nth c v 0)) <= ip v y)%R.
Proof. exact @wg_spd. Qed.
Print Assumptions C55_within_group_definite.
Theorem C55_within_group_positive :
  forall srt W,
  is_sort srt -> wg_ok W ->
  (forall c, c < ncells (w_mesh W) -> (0 < wg_removal W c)%R) ->
  let n := ncells (w_mesh W) in
  exists C, build srt (wg_caps W) (wg_ops W) = Ok C /\
    forall v y, length v = n -> multiply C v = Ok y ->
      (forall c, c < n -> (0 <= nth c y 0)%R) -> forall c, c < n -> (0 <= nth c v 0)%R.
Proof. exact @wg_positive. Qed.
Print Assumptions C55_within_group_positive.

(** C56 *)
Theorem C56_gain :
  forall srt F,
  is_sort srt ->
  let n := ncells (f_mesh F) in let G := ng (f_mat F) in
  exists C, build srt (gain_caps F) (gain_ops F) = Ok C /\
    forall v, length v = G * n -> exists y, multiply C v = Ok y /\ length y = G * n /\
      forall p c, p < G -> c < n ->
        part n y p c = production (f_adj F) (f_mat F) (mt (f_mesh F) c) (fun q => part n v q c) p.
Proof. exact @gain_operator. Qed.
Print Assumptions C56_gain.
Theorem C56_adjoint :
  forall srt m x,
  is_sort srt ->
  let n := ncells m in let G := ng x in
  let Ff := {| f_mesh := m; f_mat := x; f_adj := false |} in let Fa := {| f_mesh := m; f_mat := x; f_adj := true |} in
  exists C C', build srt (gain_caps Ff) (gain_ops Ff) = Ok C /\ build srt (gain_caps Fa) (gain_ops Fa) = Ok C' /\
    forall v w, length v = G * n -> length w = G * n ->
      exists y z, multiply C v = Ok y /\ multiply C' w = Ok z /\
        rsum (G * n) (fun i => nth i w 0 * nth i y 0)%R = rsum (G * n) (fun i => nth i z 0 * nth i v 0)%R.
Proof. exact @gain_adjoint. Qed.
Print Assumptions C56_adjoint.

(** C57 *)
Theorem C57_current :
  forall K phi g c leak,
  mesh_good (k_mesh K) -> (k_init K = true \/ k_alpha K = 1%R) -> leak < 6 -> c < ncells (k_mesh K) ->
  (forall c, c < ncells (k_mesh K) -> (0 < phi g c)%R) ->
  exists d dh, k_coef K phi g c leak = (d, dh) /\
    (if on_edge (k_mesh K) c leak then (d + dh) * phi g c
     else (dh - d) * phi g (neighbour (k_mesh K) c leak) + (d + dh) * phi g c)%R = k_J K g c leak.
Proof. exact @face_current_partial. Qed.
Print Assumptions C57_current.
Theorem C57_balance :
  forall srt K K' prev phi,
  is_sort srt -> loss_ok (k_loss K) -> cmfd_reach srt K prev -> same_problem K K' ->
  exists C, cmfd_construct srt K' prev phi = Ok C /\ reproduces_tally K' phi C.
Proof. exact @cmfd_tally. Qed.
Print Assumptions C57_balance.

(** C82 *)
Theorem C82_adjoint :
  forall srt L,
  is_sort srt -> loss_ok L -> l_adj L = false -> l_cut L = 0 ->
  let m := l_mesh L in let P := ng (l_mat L) in
  exists C C', build srt (loss_caps L) (loss_ops L) = Ok C /\
    build srt (loss_caps (adjoint_of L)) (loss_ops (adjoint_of L)) = Ok C' /\
    forall v w, length v = P * ncells m -> length w = P * ncells m ->
      exists y z, multiply C v = Ok y /\ multiply C' w = Ok z /\ vdotv m P w y = vdotv m P v z.
Proof. exact @loss_adjoint. Qed.
Print Assumptions C82_adjoint.

(** C83 *)
Theorem C83_loss_refuted :
  forall srt L C keff flag,
  loss_ok L -> loss_construct srt L C keff flag = UB.
Proof. exact @loss_construct_ub. Qed.
Print Assumptions C83_loss_refuted.
Theorem C83_within_group_refuted :
  forall srt W C,
  wg_ok W -> wg_construct srt W C = UB.
Proof. exact @wg_construct_ub. Qed.
Print Assumptions C83_within_group_refuted.
Theorem C83_cmfd_refuted :
  let phi := fun _ _ : nat => 1%R in
  exists srt C C', is_sort srt /\
    cmfd_construct srt (two_k false) None phi = Ok C /\
    cmfd_construct srt (two_k true) (Some C) phi = Ok C' /\ ~ reproduces_tally (two_k true) phi C'.
Proof. exact @cmfd_drops. Qed.
Print Assumptions C83_cmfd_refuted.
Theorem C83_gain_partial :
  forall srt F C x,
  is_sort srt -> ng x = ng (f_mat F) ->
  build srt (gain_caps F) (gain_ops F) = Ok C ->
  let n := ncells (f_mesh F) in let G := ng x in
  exists C', gain_construct srt F C x = Ok C' /\
    forall v, length v = G * n -> exists y, multiply C' v = Ok y /\ length y = G * n /\
      forall p c, p < G -> c < n ->
        part n y p c = production (f_adj F) x (mt (f_mesh F) c) (fun q => part n v q c) p.
Proof. exact @gain_rebuild. Qed.
Print Assumptions C83_gain_partial.

(** ** Cases *)
(** Two cells of width one, two groups with downscatter and fission. *)
Definition case_mesh : mesh :=
  {| dim := 1; xfm := [2]; yfm := [1]; zfm := [1]; xcme := [0%R; 2%R]; ycme := [0%R; 1%R]; zcme := [0%R; 1%R];
     mdx := [1%R; 1%R]; mdy := [1%R]; mdz := [1%R]; twx := 2%R; twy := 1%R; twz := 1%R; mat := [0%Z; 0%Z] |}.
Definition case_mtl : mtl := finalize
  {| ng := 2; nm := 1; st := fun _ _ => 1%R; sa := fun _ _ => 0%R; nsf := fun _ _ => 0%R;
     sf := fun g _ => if g =? 1 then 1%R else 0%R;
     nu := fun _ _ => 2%R; chi := fun g _ => if g =? 0 then 1%R else 0%R;
     ss := fun g gp _ => if (g =? 1) && (gp =? 0) then (/ 2)%R else 0%R;
     dc := fun _ _ => 1%R; b0 := fun _ => 0; b1 := fun _ => 0; b2 := fun _ => 0; b3 := fun _ => 0;
     cut0 := 2; cut1 := 0; ds0 := false; ds1 := false; fin := false |}.
Definition case_loss (fis : bool) (sf : nat) : loss :=
  {| l_mesh := case_mesh; l_mat := case_mtl; l_cut := 0; l_fis := fis; l_adj := false; l_keff := 1%R; l_sf := sf;
     l_bc := fun _ => Some true; l_zero := false |}.

Lemma case_mesh_good : mesh_good case_mesh.
Proof.
  unfold mesh_good, ncx, ncy, ncz. cbn. repeat split; try lia; try (unfold left_edge; cbn; ring).
  intros w [[<-|[<-|[]]]|[[<-|[]]|[<-|[]]]]; lra.
Qed.
Example C55_case fis sf : loss_ok (case_loss fis sf) /\ reflecting (dim case_mesh) (l_bc (case_loss fis sf)) /\
  (forall g k, g < 2 -> k < 1 -> (0 < removal (case_loss fis sf) g k)%R).
Proof.
  split; [|split].
  - split; [apply case_mesh_good|]. split; [cbn; lia|]. split; [|split; [|split; [|split]]].
    + intros c Hc. change (ncells (l_mesh (case_loss fis sf))) with 2 in Hc. destruct c as [|[|c]]; [cbn; lia|cbn; lia|lia].
    + intros. cbn. lra.
    + intros g gp k _ _ _. cbn. destruct ((g =? 1) && (gp =? 0)); lra.
    + apply (finalize_bounds).
    + apply (finalize_bounds).
  - intros s _. reflexivity.
  - intros g k Hg _. unfold removal. cbn. destruct sf; cbn; [|lra]. destruct g as [|[|g]]; [| |lia]; cbn; lra.
Qed.
(** The reaction part is not trivial: group 1 at unit flux. *)
Example C55_case_reactions : reactions (case_loss false 0) (fun _ _ => 1%R) 1 0 = (/ 2)%R.
Proof. unfold reactions. cbn. lra. Qed.
Definition case_wg : wgloss := {| w_mesh := case_mesh; w_mat := case_mtl; w_group := 1; w_bc := fun _ => None |}.
Example C55_case_wg : wg_ok case_wg /\ forall c, c < 2 -> (0 < wg_removal case_wg c)%R.
Proof.
  split.
  - split; [apply case_mesh_good|]. split; [cbn; lia|]. split.
    + intros c Hc. change (ncells (w_mesh case_wg)) with 2 in Hc. destruct c as [|[|c]]; [cbn; lia|cbn; lia|lia].
    + intros. cbn. lra.
  - intros c Hc. unfold wg_removal. cbn. lra.
Qed.
Example C57_case : loss_ok (k_loss (two_k true)) /\ cmfd_reach isort (two_k true) None /\ same_problem (two_k true) (two_k true).
Proof. split; [apply two_k_ok|]. split; [constructor|repeat split]. Qed.
