(** * Ecmfd_Model: the coarse mesh eigenvalue update
    Source: /repo/src/solvers/eigen/EigenCMFD.cc (cmfd_update), with the matrices of
    /repo/src/solvers/mg/CMFDLossOperator.cc and
    /repo/src/solvers/mg/DiffusionGainOperator.cc (Diffusion_Model), the coarse mesh
    and averages of Cmfd_Model and the homogenisation of Region_Model.
    Simplifications: as in Cmfd_Model; the eigensolver is a parameter. *)
From Verif Require Import Base BaseR Loop Mesh_Model Material_Model Matrix_Model Sweep_Model Region_Model Tally_Model Diffusion_Model Cmfd_Model.
Open Scope nat_scope.

(** What the solver keeps from one update to the next: the matrix of d_loss with
    its d_d_hat, and the matrix of d_gain. *)
Record hist := { e_loss : csr; e_hat : nat -> nat -> nat -> R; e_gain : csr }.

(** Vector.i.hh: norm() is the L2 norm; x.scale(1.0 / x.norm()) *)
Definition l2norm (v : list R) : R := sqrt (rsum (length v) (fun i => nth i v 0 * nth i v 0))%R.
Definition unit_of (v : list R) : list R := map (Rmult (1 / l2norm v)) v.

(** CMFDLossOperator.cc 108-111: d_alpha is set only if cmfd_relaxation is in the
    input; 148-149: it is read if construct() is told that this is not the first
    update. *)
Definition relaxation (alpha : option R) (h : option hist) : res R :=
  match alpha, h with
  | Some a, _ => Ok a
  | None, None => Ok 0%R
  | None, Some _ => UB
  end.
(** EigenCMFD.cc 118-131: no fission, keff 1; only the first update is initial. *)
Definition eoperator (U : problem) (C : cmesh) (cm : mesh) (cmat : mtl) (T : nat -> tally) (al : R) (h : option hist) : cmfd :=
  {| k_mesh := cm; k_mat := cmat; k_fis := false; k_adj := u_adj U; k_keff := 1%R;
     k_bc := u_bc U; k_zero := u_zero U; k_correct := u_correct U; k_alpha := al;
     k_init := match h with None => true | Some _ => false end;
     k_cur := fun i j k g axis sense =>
       match partial_current C (T g) i j k axis (if sense then 1 else 0) with Ok x => x | _ => 0%R end;
     k_old := match h with None => fun _ _ _ => 0%R | Some o => e_hat o end |}.

(** EigenCMFD.cc 108-160: coarse mesh, map, gain and loss matrices, starting vector
    and what is kept. *)
Definition ecoarse (srt : list triplet -> list triplet)
    (U : problem) (C : cmesh) (T : nat -> tally) (cur : option (list (list R))) (alpha : option R) (h : option hist)
    (phi : list (list R)) : res (mesh * list nat * list R * hist) :=
  let m := u_mesh U in
  let G := ng (u_mat U) in
  do cm <- coarse_of C;
  do cmap <- coarse_map C;
  do vols <- mapM (volume m) (seq 0 (ncells m));
  do mf <- homogenize {| h_mat := u_mat U; h_n := ncells m; h_vol := vols; h_reg := cmap;
                         h_mmap := map (mt m) (seq 0 (ncells m)); h_w := FineMesh phi cur; h_dc := PHI_D |}
                      (repeat 1 G) 0;
  let fl := fun g c => nth c (nth g (snd mf) []) 0%R in
  do al <- relaxation alpha h;
  let K := eoperator U C cm (fst mf) T al h in
  do L <- cmfd_construct srt K (match h with None => None | Some o => Some (e_loss o) end) fl;
  let F := {| f_mesh := cm; f_mat := fst mf; f_adj := u_adj U |} in
  do M <- (match h with None => build srt (gain_caps F) (gain_ops F) | Some o => gain_construct srt F (e_gain o) (fst mf) end);
  (* the averages of the flux; the first component of [averages] is not used *)
  do bx <- averages m cm cmap G phi phi;
  Ok (cm, cmap, unit_of (snd bx), {| e_loss := L; e_hat := fun g c leak => snd (k_coef K fl g c leak); e_gain := M |}).

(** EigenCMFD.cc 101-183.  [eig M L x] gives an eigenvector and eigenvalue of
    M x = k L x, started from x. *)
Definition eupdate (srt : list triplet -> list triplet) (eig : csr -> csr -> list R -> res (list R * R))
    (U : problem) (C : cmesh) (T : nat -> tally) (cur : option (list (list R))) (alpha : option R) (h : option hist)
    (phi : list (list R)) : res (R * list (list R) * hist) :=
  do s <- ecoarse srt U C T cur alpha h phi;
  let '(cm, cmap, x0, h') := s in
  do xk <- eig (e_gain h') (e_loss h') x0;
  let x := unit_of (fst xk) in
  do phi' <- rescale (ncells (u_mesh U)) (ncells cm) (ng (u_mat U)) cmap (u_omega U) x x0 phi;
  Ok (snd xk, phi', h').

(** EigenCMFD.cc 55-82: one update after another, each with the flux left by the
    one before; [resweep] is the sweep between them and gives flux and tally.  The
    eigenvalues are collected. *)
Fixpoint eupdates (srt : list triplet -> list triplet) (eig : csr -> csr -> list R -> res (list R * R))
    (U : problem) (C : cmesh) (resweep : list (list R) -> list (list R) * (nat -> tally)) (cur : option (list (list R))) (alpha : option R)
    (n : nat) (h : option hist) (phi : list (list R)) : res (list R * list (list R)) :=
  match n with
  | 0 => Ok ([], phi)
  | S n => let s := resweep phi in
           do r <- eupdate srt eig U C (snd s) cur alpha h (fst s);
           let '(k, phi', h') := r in
           do q <- eupdates srt eig U C resweep cur alpha n (Some h') phi';
           Ok (k :: fst q, snd q)
  end.
