(** * Model of the diffusion and CMFD matrices
    Source: /repo/src/solvers/mg/DiffusionLossOperator.cc,
    /repo/src/solvers/mg/DiffusionGainOperator.cc,
    /repo/src/solvers/mg/CMFDLossOperator.cc and
    /repo/src/solvers/wg/WGDiffusionLossOperator.cc.
    The operators are callow::Matrix objects (Matrix_Model.v): their build
    functions are modelled by the list of insert calls they make, in order,
    and these calls are run on the matrix model.  The values returned by insert
    are only looked at by [Assert], i.e. ignored.
    Simplifications: [double] is [R]; unsigned and int indices are [nat];
    reading the widths and the material map with a cell index below
    number_cells() is a total function ([nth]); the input database is
    represented by the values looked up in it; printing is not modelled. *)
From Verif Require Import Base BaseR Util_Model Mesh_Model Material_Model Matrix_Model Matrix_Spec.
Open Scope nat_scope.

(** ** Faces *)

Definition axis_cells (m : mesh) (a : nat) : nat :=
  match a with 0 => ncx m | 1 => ncy m | _ => ncz m end.
(** {i, j, k} of a cell: DiffusionLossOperator.cc 154-156. *)
Definition pos (m : mesh) (c a : nat) : nat :=
  match a with
  | 0 => cell_to_i (ncx m) c
  | 1 => cell_to_j (ncx m) (ncy m) c
  | _ => cell_to_k (ncx m) (ncy m) c
  end.
Definition axis_widths_of (m : mesh) (a : nat) : list R :=
  match a with 0 => mdx m | 1 => mdy m | _ => mdz m end.
(** cell_hxyz[a], neig_hxyz[a]: 159, 223. *)
Definition hw (m : mesh) (c a : nat) : R := nth (pos m c a) (axis_widths_of m a) 0%R.

(** 181-200: leak = 0 -x, 1 +x, 2 -y, 3 +y, 4 -z, 5 +z; xyz_idx = leak / 2,
    dir_idx = leak mod 2, and the face is on the boundary when bound[leak] ==
    nxyz[xyz_idx][dir_idx]. *)
Definition on_edge (m : mesh) (c leak : nat) : bool :=
  pos m c (leak / 2) =? (if leak mod 2 =? 0 then 0 else axis_cells m (leak / 2) - 1).
(** 187-195, 217: neig_idx[xyz_idx] += shift_idx; index(...). *)
Definition shifted (m : mesh) (c leak a : nat) : nat :=
  if a =? leak / 2 then (if leak mod 2 =? 0 then pos m c a - 1 else pos m c a + 1) else pos m c a.
Definition neighbour (m : mesh) (c leak : nat) : nat :=
  index (ncx m) (ncy m) (shifted m c leak 0) (shifted m c leak 1) (shifted m c leak 2).

(** 207-209 *)
Definition dtilde_edge (D be h : R) : R :=
  ((2 * D * (1 - be)) / (4 * D * (1 + be) + (1 - be) * h))%R.
(** 227-229 *)
Definition dtilde_inner (D Dn h hn : R) : R :=
  ((2 * D * Dn) / (hn * D + h * Dn))%R.

(** 74-95: the albedo of a side: [bc side] is None when the entry is missing and
    otherwise tells whether it is "reflect"; sides beyond the dimension keep 1. *)
Definition albedo (d : nat) (bc : nat -> option bool) (zero_flux : bool) (side : nat) : R :=
  (if side <? 2 * d then
     match bc side with
     | Some true => 1
     | Some false => if zero_flux then -1 else 0
     | None => 0
     end
   else 1)%R.
(** WGDiffusionLossOperator.cc 54-62 *)
Definition wg_albedo (d : nat) (bc : nat -> option bool) (side : nat) : R :=
  (if side <? 2 * d then match bc side with Some true => 1 | _ => 0 end else 1)%R.

(** mat_map[cell] *)
Definition mt (m : mesh) (c : nat) : nat := Z.to_nat (nth c (mat m) 0%Z).

(** Coupling coefficient of face [leak] of cell c in group g: 197-229. *)
Definition dtilde (m : mesh) (x : mtl) (be : nat -> R) (g c leak : nat) : R :=
  let a := leak / 2 in
  if on_edge m c leak then dtilde_edge (dc x g (mt m c)) (be leak) (hw m c a)
  else let n := neighbour m c leak in
       dtilde_inner (dc x g (mt m c)) (dc x g (mt m n)) (hw m c a) (hw m n a).

(** ** The insert calls of one row *)

(** 166-243: the off-diagonal calls for the faces, in order; [row c] is the row of
    cell c in the group treated, [off leak] the value. *)
Definition face_ops (m : mesh) (row : nat -> nat) (off : nat -> R) (nleak c : nat) : list op :=
  flat_map (fun leak => if on_edge m c leak then []
                        else [Op (row c) (Z.of_nat (row (neighbour m c leak))) (off leak) INSERT])
           (seq 0 nleak).

(** 247-249: jo[] is zero beyond the faces treated. *)
Definition jnet (m : mesh) (c nleak : nat) (jo : nat -> R) : R :=
  let j := fun leak => if leak <? nleak then jo leak else 0%R in
  ((j 1%nat + j 0%nat) / hw m c 0 + (j 3%nat + j 2%nat) / hw m c 1 + (j 5%nat + j 4%nat) / hw m c 2)%R.

(** Group lists as unsigned numbers. *)
Definition nrange (a b : Z) (incl : bool) : list nat := map Z.to_nat (range a b incl).

(** ** DiffusionLossOperator *)

Record loss := {
  l_mesh : mesh; l_mat : mtl; l_cut : nat; l_fis : bool; l_adj : bool; l_keff : R; l_sf : nat;
  l_bc : nat -> option bool; l_zero : bool }.

(** 41-43 *)
Definition l_groups (L : loss) : list nat :=
  nrange (Z.of_nat (l_cut L)) (if l_adj L then -1 else Z.of_nat (ng (l_mat L)))%Z false.
(** 133: index within the active range. *)
Definition l_gi (L : loss) (g : nat) : nat := if l_adj L then g else g - l_cut L.
(** 141 *)
Definition l_row (L : loss) (g c : nat) : nat := c + l_gi L g * ncells (l_mesh L).
(** 149-150 *)
Definition l_sr (L : loss) (g c : nat) : R :=
  let k := mt (l_mesh L) c in
  (if l_sf L =? 0 then st (l_mat L) g k - ss (l_mat L) g g k else st (l_mat L) g k)%R.
Definition l_dtilde (L : loss) : nat -> nat -> nat -> R :=
  dtilde (l_mesh L) (l_mat L) (albedo (dim (l_mesh L)) (l_bc L) (l_zero L)).
(** 262-266 *)
Definition l_scatter_groups (L : loss) (g : nat) : list nat :=
  let lo := lower (l_mat L) g (l_adj L) in
  nrange (Z.of_nat (if l_adj L then Nat.min lo (l_cut L) else Nat.max lo (l_cut L)))
         (Z.of_nat (upper (l_mat L) g (l_adj L))) true.
(** 276-277 *)
Definition l_scat (L : loss) (g gp c : nat) : R :=
  let k := mt (l_mesh L) c in
  if l_adj L then ss (l_mat L) gp g k else ss (l_mat L) g gp k.
(** 314-321 without sign and keff *)
Definition l_prod (L : loss) (g gp c : nat) : R :=
  let k := mt (l_mesh L) c in
  (if l_adj L then nsf (l_mat L) g k * chi (l_mat L) gp k else nsf (l_mat L) gp k * chi (l_mat L) g k)%R.

(** 137-283: one row. *)
Definition loss_row_ops (L : loss) (g c : nat) : list op :=
  let m := l_mesh L in
  face_ops m (l_row L g) (fun leak => (- l_dtilde L g c leak / hw m c (leak / 2))%R) 6 c ++
  [Op (l_row L g c) (Z.of_nat (l_row L g c)) (jnet m c 6 (l_dtilde L g c) + l_sr L g c)%R INSERT] ++
  (if l_sf L =? 0 then
     flat_map (fun gp => if gp =? g then []
                         else [Op (l_row L g c) (Z.of_nat (l_row L gp c)) (- l_scat L g gp c)%R INSERT])
              (l_scatter_groups L g)
   else []).
(** 295-331: one row of the fission block. *)
Definition loss_fission_ops (L : loss) (g c : nat) : list op :=
  map (fun gp => Op (l_row L g c) (Z.of_nat (l_row L gp c)) (- l_prod L g gp c / l_keff L)%R ADD) (l_groups L).
(** 116-334: all insert calls of build(). *)
Definition loss_ops (L : loss) : list op :=
  let cells := seq 0 (ncells (l_mesh L)) in
  flat_map (fun g => flat_map (loss_row_ops L g) cells) (l_groups L) ++
  (if l_fis L && (l_sf L =? 0)
   then flat_map (fun g => flat_map (loss_fission_ops L g) cells) (l_groups L) else []).
(** 47-48 *)
Definition loss_size (L : loss) : nat := length (l_groups L) * ncells (l_mesh L).
(** 55-57 *)
Definition loss_caps (L : loss) : list nat :=
  repeat (1 + 2 * dim (l_mesh L) + length (l_groups L)) (loss_size L).

(** ** WGDiffusionLossOperator *)

Record wgloss := { w_mesh : mesh; w_mat : mtl; w_group : nat; w_bc : nat -> option bool }.
Definition w_dtilde (W : wgloss) : nat -> nat -> R :=
  dtilde (w_mesh W) (w_mat W) (wg_albedo (dim (w_mesh W)) (w_bc W)) (w_group W).
(** 101-102 *)
Definition w_sr (W : wgloss) (c : nat) : R :=
  let k := mt (w_mesh W) c in (st (w_mat W) (w_group W) k - ss (w_mat W) (w_group W) (w_group W) k)%R.
(** 196-204: jo[leak] = shift_idx * dtilde, and the differences are taken. *)
Definition w_jnet (W : wgloss) (c : nat) : R :=
  let m := w_mesh W in
  let jo := fun leak => ((if leak mod 2 =? 0 then -1 else 1) * w_dtilde W c leak)%R in
  ((jo 1%nat - jo 0%nat) / hw m c 0 + (jo 3%nat - jo 2%nat) / hw m c 1 + (jo 5%nat - jo 4%nat) / hw m c 2)%R.
Definition wg_row_ops (W : wgloss) (c : nat) : list op :=
  let m := w_mesh W in
  face_ops m (fun c => c) (fun leak => (- w_dtilde W c leak / hw m c (leak / 2))%R) 6 c ++
  [Op c (Z.of_nat c) (w_jnet W c + w_sr W c)%R INSERT].
(** 78-213 *)
Definition wg_ops (W : wgloss) : list op := flat_map (wg_row_ops W) (seq 0 (ncells (w_mesh W))).
(** 36-42 *)
Definition wg_caps (W : wgloss) : list nat := repeat (1 + 2 * dim (w_mesh W)) (ncells (w_mesh W)).

(** ** DiffusionGainOperator *)

Record gain := { f_mesh : mesh; f_mat : mtl; f_adj : bool }.
Definition f_row (F : gain) (g c : nat) : nat := c + g * ncells (f_mesh F).
Definition f_val (F : gain) (g gp c : nat) : R :=
  let k := mt (f_mesh F) c in
  (if f_adj F then nsf (f_mat F) g k * chi (f_mat F) gp k else nsf (f_mat F) gp k * chi (f_mat F) g k)%R.
(** 65-102 *)
Definition gain_ops (F : gain) : list op :=
  let G := seq 0 (ng (f_mat F)) in
  flat_map (fun g => flat_map (fun c =>
    map (fun gp => Op (f_row F g c) (Z.of_nat (f_row F gp c)) (f_val F g gp c) INSERT) G)
    (seq 0 (ncells (f_mesh F)))) G.
(** 34-44 *)
Definition gain_caps (F : gain) : list nat :=
  repeat (ng (f_mat F)) (ng (f_mat F) * ncells (f_mesh F)).

(** ** CMFDLossOperator *)

Record cmfd := {
  k_mesh : mesh; k_mat : mtl; k_fis : bool; k_adj : bool; k_keff : R;
  k_bc : nat -> option bool; k_zero : bool; k_correct : bool; k_alpha : R; k_init : bool;
  (** tally->partial_current(si, sj, sk, g, axis, sense) *)
  k_cur : nat -> nat -> nat -> nat -> nat -> bool -> R;
  (** d_d_hat[g][cell][leak] before the build *)
  k_old : nat -> nat -> nat -> R }.

(** 211-218: the net current leaving through the face, per unit area: width over
    volume is one over the area of the face. *)
Definition k_J (K : cmfd) (g c leak : nat) : R :=
  let m := k_mesh K in let a := leak / 2 in
  let s := fun b => if b =? a then pos m c b + leak mod 2 else pos m c b in
  let vol := (hw m c 0 * hw m c 1 * hw m c 2)%R in
  ((k_cur K (s 0%nat) (s 1%nat) (s 2%nat) g a true - k_cur K (s 0%nat) (s 1%nat) (s 2%nat) g a false) *
   ((if leak mod 2 =? 0 then -1 else 1) * hw m c a / vol))%R.
(** 148-149 *)
Definition k_al (K : cmfd) : R := if k_init K then 1%R else k_alpha K.

(** 223-268: the coupling coefficient used and the relaxed correction for the flux
    [phi].  The unqualified abs of line 254 is taken to be the absolute value of a
    double. *)
Definition k_coef (K : cmfd) (phi : nat -> nat -> R) (g c leak : nat) : R * R :=
  let m := k_mesh K in
  let J := k_J K g c leak in
  let d := dtilde m (k_mat K) (albedo (dim m) (k_bc K) (k_zero K)) g c leak in
  let relax := fun dh => (k_al K * dh + (1 - k_al K) * k_old K g c leak)%R in
  let p := phi g c in
  if on_edge m c leak then (d, relax ((J - d * p) / p)%R)
  else
    let pn := phi g (neighbour m c leak) in
    let dh := ((J - d * (p - pn)) / (pn + p))%R in
    if (if Rlt_dec (Rabs d) (Rabs dh) then true else false) && k_correct K
    then let d' := (/ 2 * J / p)%R in (d', relax d')
    else (d, relax dh).

Definition k_row (K : cmfd) (g c : nat) : nat := c + g * ncells (k_mesh K).
(** 42-44 *)
Definition k_groups (K : cmfd) : list nat :=
  let n := Z.of_nat (ng (k_mat K)) in
  nrange (if k_adj K then n - 1 else 0)%Z (if k_adj K then -1 else n)%Z false.
Definition k_scat (K : cmfd) (g gp c : nat) : R :=
  let k := mt (k_mesh K) c in
  if k_adj K then ss (k_mat K) gp g k else ss (k_mat K) g gp k.
Definition k_prod (K : cmfd) (g gp c : nat) : R :=
  let k := mt (k_mesh K) c in
  (if k_adj K then nsf (k_mat K) g k * chi (k_mat K) gp k else nsf (k_mat K) gp k * chi (k_mat K) g k)%R.
(** 298-303 *)
Definition k_scatter_groups (K : cmfd) (g : nat) : list nat :=
  nrange (Z.of_nat (lower (k_mat K) g (k_adj K))) (Z.of_nat (upper (k_mat K) g (k_adj K))) true.
(** 158-322 *)
Definition cmfd_row_ops (K : cmfd) (phi : nat -> nat -> R) (g c : nat) : list op :=
  let m := k_mesh K in
  let co := k_coef K phi g c in
  let k := mt m c in
  face_ops m (k_row K g) (fun leak => ((snd (co leak) - fst (co leak)) / hw m c (leak / 2))%R) (2 * dim m) c ++
  [Op (k_row K g c) (Z.of_nat (k_row K g c))
      (jnet m c (2 * dim m) (fun leak => (fst (co leak) + snd (co leak))%R) +
       (st (k_mat K) g k - ss (k_mat K) g g k))%R INSERT] ++
  flat_map (fun gp => if gp =? g then []
                      else [Op (k_row K g c) (Z.of_nat (k_row K gp c)) (- k_scat K g gp c)%R INSERT])
           (k_scatter_groups K g).
(** 328-369 *)
Definition cmfd_fission_ops (K : cmfd) (g c : nat) : list op :=
  map (fun gp => Op (k_row K g c) (Z.of_nat (k_row K gp c)) (- k_prod K g gp c / k_keff K)%R ADD) (k_groups K).
Definition cmfd_ops (K : cmfd) (phi : nat -> nat -> R) : list op :=
  let cells := seq 0 (ncells (k_mesh K)) in
  flat_map (fun g => flat_map (cmfd_row_ops K phi g) cells) (k_groups K) ++
  (if k_fis K then flat_map (fun g => flat_map (cmfd_fission_ops K g) cells) (k_groups K) else []).
(** 55 *)
Definition cmfd_caps (K : cmfd) : list nat :=
  repeat (1 + 2 * dim (k_mesh K) + ng (k_mat K)) (ng (k_mat K) * ncells (k_mesh K)).

(** ** Building and rebuilding *)

(** The calls of build() on the storage [A], then assemble(); the flags are ignored. *)
Definition build_on (srt : list triplet -> list triplet) (n : nat) (A : coo) (ops : list op) : res csr :=
  do (_, A') <- run A ops;
  assemble srt n A'.

(** The constructors: preallocate, then build. *)
Definition build (srt : list triplet -> list triplet) (caps : list nat) (ops : list op) : res csr :=
  build_on srt (length caps) (preallocate caps) ops.

(** Matrix.cc 221: assemble() clears d_aij, so that an assembled matrix has no
    rows to insert into. *)
Definition assembled_store : coo := [].
(** Matrix.cc 281-310: clear() preallocates each row with the number of entries
    it had in the assembled matrix. *)
Definition cleared (C : csr) : coo :=
  preallocate (map (fun i => nth (S i) (c_rows C) 0 - nth i (c_rows C) 0) (seq 0 (length (c_rows C) - 1))).

(** DiffusionLossOperator.cc 104-109 (and WGDiffusionLossOperator.cc 72-75):
    construct() on an operator whose constructor has built it. *)
Definition loss_construct srt (L : loss) (C : csr) (keff : R) (flag : nat) : res csr :=
  let L' := {| l_mesh := l_mesh L; l_mat := l_mat L; l_cut := l_cut L; l_fis := l_fis L; l_adj := l_adj L;
               l_keff := keff; l_sf := flag; l_bc := l_bc L; l_zero := l_zero L |} in
  build_on srt (loss_size L) assembled_store (loss_ops L').
Definition wg_construct srt (W : wgloss) (C : csr) : res csr :=
  build_on srt (ncells (w_mesh W)) assembled_store (wg_ops W).
(** DiffusionGainOperator.cc 51-58 *)
Definition gain_construct srt (F : gain) (C : csr) (x : mtl) : res csr :=
  let F' := {| f_mesh := f_mesh F; f_mat := x; f_adj := f_adj F |} in
  build_on srt (ng (f_mat F) * ncells (f_mesh F)) (cleared C) (gain_ops F').
(** CMFDLossOperator.cc 121-138: the first construct() finds the preallocated
    storage ([None]); later ones clear the assembled matrix. *)
Definition cmfd_construct srt (K : cmfd) (prev : option csr) (phi : nat -> nat -> R) : res csr :=
  build_on srt (ng (k_mat K) * ncells (k_mesh K))
    (match prev with None => preallocate (cmfd_caps K) | Some C => cleared C end) (cmfd_ops K phi).
