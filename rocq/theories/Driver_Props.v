(** * Theorems on the driver program (C117, C118) *)
From Coq Require Import String.
From Verif Require Import Base BaseR Loop Util_Model Mesh_Model Mesh_Spec
  Manager_Model Manager_Spec Driver_Model Driver_Spec Driver_Proofs Driver_Proofs2.
Open Scope string_scope.
Open Scope nat_scope.

(** C117 *)
Theorem C117_fixed_refuted :
  (forall (Sub F : Type) (parts : db Sub -> nat -> disc -> res unit) (details : db Sub -> kind -> res unit)
          (run : solver esource -> R -> F -> F) (zero : F) (eig : string -> manager esource F -> F)
          (d : db Sub) (M : manager esource F) ptype,
   says d "problem_type" "" ptype -> ptype <> "eigenvalue" ->
   execute parts details run zero eig d = Ok M ->
   g_flux M = zero /\ g_solver M = None /\ forall k, solve run k M = Ok (false, M)) /\
  (exists M, execute (fun _ _ _ => Ok tt) (fun _ _ => Ok tt) x_run false (fun _ _ => true) x_db = Ok M /\
    g_flux M = false /\ exists q, g_sources M = [q] /\ q = EConstant 1 2%R).
Proof. exact (conj (@fixed_unsolved) fixed_witness). Qed.
Print Assumptions C117_fixed_refuted.

Theorem C117_source_partial :
  forall (Sub : Type) (d : db Sub) (groups : Z),
  (forall s, get_str d "source_type" = Ok "constant" -> has_dbl d "source_strength" s ->
     driver_source d groups = Ok (EConstant groups s)) /\
  (forall v mp, get_str d "source_type" = Ok "isotropic" -> has_vd d "source_spectra" v ->
     has_vi d "source_spectra_map" mp -> (0 < groups)%Z ->
     exists t, driver_source d groups = Ok (EIsotropic groups t mp) /\
       List.length t = List.length v / Z.to_nat groups /\
       forall r, r < List.length t -> List.length (nth r t []) = Z.to_nat groups /\
         forall c, c < Z.to_nat groups -> nth c (nth r t []) 0%R = nth (r * Z.to_nat groups + c) v 0%R).
Proof. intros. split; intros; [apply constant_source|apply isotropic_source]; auto. Qed.
Print Assumptions C117_source_partial.

Theorem C117_strength_refuted :
  forall (Sub : Type) (d : db Sub) (groups : Z),
  get_str d "source_type" = Ok "constant" -> check d "source_strength" = false ->
  driver_source d groups = UB.
Proof. exact @strength_needed. Qed.
Print Assumptions C117_strength_refuted.

Theorem C117_eigen_partial :
  forall (Sub F : Type) (parts : db Sub -> nat -> disc -> res unit) (details : db Sub -> kind -> res unit)
         (run : solver esource -> R -> F -> F) (zero : F) (eig : string -> manager esource F -> F)
         (d : db Sub) (M : manager esource F) (n : Z),
  has_int d "dimension" n -> says d "problem_type" "" "eigenvalue" ->
  execute parts details run zero eig d = Ok M ->
  says d "equation" "dd" "diffusion" \/
    (exists o, (o = "GS" \/ o = "CMFD" \/ o = "GMRES") /\ says d "outer_solver" "GS" o) ->
  exists M0, eigen_manager esource parts details zero d (Z.to_nat n) = Ok M0 /\ g_ready M0 = true /\
    ((exists name, says d "eigen_solver" "PI" name /\ M = with_flux M0 (eig name M0)) \/
     (M = M0 /\ exists name, says d "eigen_solver" "PI" name /\
        ((name = "diffusion" /\ g_disc M <> DIFF) \/ (name = "GD" /\ g_disc M = DIFF) \/
         ~ In name ["PI"; "diffusion"; "arnoldi"; "cmfd"; "GD"]))).
Proof. exact @eigen_execute. Qed.
Print Assumptions C117_eigen_partial.

(** C118 *)
Theorem C118_mesh_1d :
  forall (Sub : Type) (d : db Sub) xf xc mm,
  has_int d "dimension" 1%Z -> gives_axis d "mesh_xcme" "mesh_xfm" xc xf ->
  has_vi d "mesh_mat_map" mm -> List.length mm = List.length xf ->
  exists m, parse_mesh d = Ok m /\
    described 1 (nats xf) [1] [1] xc [0%R; 1%R] [0%R; 1%R] mm m.
Proof. exact @mesh_1d. Qed.
Print Assumptions C118_mesh_1d.

Theorem C118_mesh_1d_fine :
  forall (Sub : Type) (d : db Sub) xe mm n,
  has_int d "dimension" 1%Z -> check d "mesh_xcme" = false -> has_vd d "mesh_xfme" xe ->
  has_vi d "mesh_mat_map" mm -> 0 < n -> List.length xe = n + 1 -> List.length mm = n ->
  (forall i, i < n -> (nth i xe 0 < nth (S i) xe 0)%R) ->
  exists m, parse_mesh d = Ok m /\ mesh_good m /\ dim m = 1 /\ ncx m = n /\ ncy m = 1 /\ ncz m = 1 /\
    (forall i, i < n -> nth i (mdx m) 0%R = (nth (S i) xe 0 - nth i xe 0)%R) /\
    mdy m = [1%R] /\ mdz m = [1%R] /\ mat m = mm.
Proof. exact @mesh_1d_fine. Qed.
Print Assumptions C118_mesh_1d_fine.

Theorem C118_mesh_2d_partial :
  forall (Sub : Type) (d : db Sub) xf yf xc yc mm,
  has_int d "dimension" 2%Z ->
  gives_axis d "mesh_xcme" "mesh_xfm" xc xf -> gives_axis d "mesh_ycme" "mesh_yfm" yc yf ->
  has_vi d "mesh_mat_map" mm -> List.length mm = List.length xf * List.length yf ->
  List.length xf = List.length yf ->
  exists m, parse_mesh d = Ok m /\ described 2 (nats xf) (nats yf) [1] xc yc [0%R; 1%R] mm m.
Proof. intros. eapply mesh_2d; eauto. Qed.
Print Assumptions C118_mesh_2d_partial.

Theorem C118_mesh_2d_refuted :
  (forall (Sub : Type) (d : db Sub) xf yf xc yc mm,
   has_int d "dimension" 2%Z ->
   gives_axis d "mesh_xcme" "mesh_xfm" xc xf -> gives_axis d "mesh_ycme" "mesh_yfm" yc yf ->
   has_vi d "mesh_mat_map" mm -> List.length mm = List.length xf * List.length yf ->
   List.length xf <> List.length yf -> parse_mesh d = Err) /\
  (exists d : db unit, gives_axis d "mesh_xcme" "mesh_xfm" [0; 1]%R [1]%Z /\
    has_vd d "mesh_ycme" [0%R] /\ has_vi d "mesh_yfm" [1%Z] /\ has_int d "dimension" 2%Z /\ parse_mesh d = UB).
Proof. split; [|exact mesh_2d_unchecked]. intros. eapply mesh_2d; eauto. Qed.
Print Assumptions C118_mesh_2d_refuted.

Theorem C118_mesh_3d_partial :
  forall (Sub : Type) (d : db Sub) f xc yc zc mm,
  has_int d "dimension" 3%Z ->
  gives_axis d "mesh_xcme" "mesh_xfm" xc f -> gives_axis d "mesh_ycme" "mesh_yfm" yc f ->
  gives_axis d "mesh_zcme" "mesh_zfm" zc f ->
  has_vi d "mesh_mat_map" mm -> List.length mm = List.length f * List.length f * List.length f ->
  exists m, parse_mesh d = Ok m /\ described 3 (nats f) (nats f) (nats f) xc yc zc mm m.
Proof. intros. eapply mesh_3d; eauto. Qed.
Print Assumptions C118_mesh_3d_partial.

Theorem C118_mesh_3d_refuted :
  exists (d : db unit) m, has_int d "dimension" 3%Z /\
    gives_axis d "mesh_xcme" "mesh_xfm" [0; 1]%R [1]%Z /\ gives_axis d "mesh_ycme" "mesh_yfm" [0; 1]%R [2]%Z /\
    gives_axis d "mesh_zcme" "mesh_zfm" [0; 1]%R [3]%Z /\ has_vi d "mesh_mat_map" [0%Z] /\
    parse_mesh d = Ok m /\ ncells m = 18.
Proof. exact mesh_3d_witness. Qed.
Print Assumptions C118_mesh_3d_refuted.

Theorem C118_mesh_fine_refuted :
  forall (Sub : Type) (d : db Sub) n m,
  has_int d "dimension" n -> (2 <= n)%Z -> check d "mesh_xcme" = false -> parse_mesh d <> Ok m.
Proof. exact @mesh_fine_23. Qed.
Print Assumptions C118_mesh_fine_refuted.
