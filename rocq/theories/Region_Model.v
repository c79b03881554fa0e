(** * Model of region edits, homogenisation and coarse meshes
    Source: /repo/src/postprocess/ReactionRates.cc,
    /repo/src/transport/Homogenize.cc, /repo/src/transport/CoarseMesh.cc.
    Simplifications: [double] is [R]; a mesh is given by its cell counts and
    widths; maps of region and material indices are lists of [nat]; the
    existence of the named mesh maps is assumed; the interleaved accumulators
    of one loop are separate loops over the same range. *)
From Verif Require Import Base BaseR Loop Material_Model Mesh_Model.
Open Scope nat_scope.

(** Loop over k, j, i (outermost to innermost). *)
Definition for3 {S} (nx ny nz : nat) (s : S) (body : nat -> nat -> nat -> S -> res S) : res S :=
  for_ 0 nz s (fun k s => for_ 0 ny s (fun j s => for_ 0 nx s (fun i s => body i j k s))).

(** v[map[c]] += x *)
Definition accum (map : list nat) (c : nat) (x : R) (v : list R) : res (list R) :=
  do r <- rd map c; do y <- rd v r; wr v r (y + x)%R.

(** ** ReactionRates *)

(** max_element of a non-empty vector; on an empty one the iterator is not
    dereferenceable. *)
Definition max_element (l : list nat) : res nat :=
  match l with [] => UB | a :: r => Ok (fold_left Nat.max r a) end.

Record axes := { ax_nx : nat; ax_ny : nat; ax_nz : nat; ax_dx : list R; ax_dy : list R; ax_dz : list R }.
Definition ax_cells (a : axes) : nat := ax_nx a * ax_ny a * ax_nz a.
Definition ax_volume (a : axes) (i j k : nat) : res R :=
  do x <- rd (ax_dx a) i; do y <- rd (ax_dy a) j; do z <- rd (ax_dz a) k; Ok (x * y * z)%R.

(** ReactionRates.cc 40-49 *)
Definition fission_rate (n : nat) (m : mtl) (mmap : list nat) (phi : list (list R)) : res (list R) :=
  for_ 0 (ng m) (repeat 0%R n) (fun g fr =>
    do f <- rd phi g;
    for_ 0 n fr (fun c fr =>
      do p <- rd f c; do k <- rd mmap c;
      if k <? nm m then do y <- rd fr c; wr fr c (y + p * sf m g k)%R else UB)).

(** ReactionRates.cc 30-95 *)
Definition region_power (a : axes) (m : mtl) (mmap : list nat) (phi : list (list R)) (map : list nat) (scale : R)
  : res (list R) :=
  do fr <- fission_rate (ax_cells a) m mmap phi;
  do mx <- max_element map;
  let number := 1 + mx in
  do r <- for3 (ax_nx a) (ax_ny a) (ax_nz a) (repeat 0%R number, 0%R) (fun i j k s =>
            let cell := index (ax_nx a) (ax_ny a) i j k in
            do v <- ax_volume a i j k;
            do f <- rd fr cell;
            do p <- accum map cell (v * f)%R (fst s);
            Ok (p, (snd s + v * f)%R));
  if Rlt_dec 0 scale then
    let scale := (scale / snd r)%R in
    for_ 0 number (fst r) (fun reg p => do y <- rd p reg; wr p reg (y * scale)%R)
  else Ok (fst r).

(** ReactionRates.cc 98-138 *)
Definition edit (a : axes) (map : list nat) (f : list R) (mean : bool) : res (list R) :=
  do mx <- max_element map;
  let number := 1 + mx in
  do r <- for3 (ax_nx a) (ax_ny a) (ax_nz a) (repeat 0%R number, repeat 0%R number) (fun i j k s =>
            let cell := index (ax_nx a) (ax_ny a) i j k in
            do v <- ax_volume a i j k;
            do x <- rd f cell;
            do e <- accum map cell (v * x)%R (fst s);
            do w <- accum map cell v (snd s);
            Ok (e, w));
  if mean then
    for_ 0 number (fst r) (fun cell e =>
      do g <- rd map cell; do y <- rd e g; do w <- rd (snd r) g; wr e g (y / w)%R)
  else Ok (fst r).

(** ** Homogenize *)

(** Homogenize.hh 60-70, 147-151: the weighting spectrum. *)
Inductive weighting :=
| FineMesh (phi : list (list R)) (current : option (list (list R)))
| RegionSpectrum (s : list (list R)) (smap : list nat).
Inductive dc_option := PHI_D | CURRENT_D | PHI_SIGMA_TR.

(** Homogenize.cc 232-246 *)
Definition spectrum (w : weighting) (g cell : nat) : res R :=
  match w with
  | FineMesh phi _ => do f <- rd phi g; rd f cell
  | RegionSpectrum s smap => do f <- rd s g; do r <- rd smap cell; rd f r
  end.
(** Homogenize.cc 41-43 and 212-229: current weighting only if it is stored. *)
Definition current (w : weighting) (dc : dc_option) (g cell : nat) : res R :=
  match w, dc with
  | FineMesh _ (Some cur), CURRENT_D => do f <- rd cur g; rd f cell
  | _, _ => spectrum w g cell
  end.

Record hom := { h_mat : mtl; h_n : nat; h_vol : list R; h_reg : list nat; h_mmap : list nat;
                h_w : weighting; h_dc : dc_option }.

(** d_material->xs(m, group) *)
Definition xs (h : hom) (f : nat -> nat -> R) (fi g : nat) : res R :=
  do k <- rd (h_mmap h) fi;
  if (g <? ng (h_mat h)) && (k <? nm (h_mat h)) then Ok (f g k) else UB.

(** pv: line 137; [fg] is the position among the requested groups. *)
Definition pv (h : hom) (fg fi : nat) : res R :=
  do s <- spectrum (h_w h) fg fi; do v <- rd (h_vol h) fi; Ok (s * v)%R.
Definition jv (h : hom) (fg fi : nat) : res R :=
  do s <- current (h_w h) (h_dc h) fg fi; do v <- rd (h_vol h) fi; Ok (s * v)%R.

(** Loop over the fine groups [start, start+count) and the cells. *)
Definition acc_region (h : hom) (start count : nat) (t : nat -> nat -> res R) (v : list R) : res (list R) :=
  for_ start (start + count) v (fun fg v =>
    for_ 0 (h_n h) v (fun fi v => do x <- t fg fi; accum (h_reg h) fi x v)).

(** Lines 148-150: every iteration overwrites temp_fd. *)
Definition temp_fd (h : hom) (fi : nat) : res R :=
  for_ 0 (ng (h_mat h)) 0%R (fun gp _ =>
    do s <- spectrum (h_w h) gp fi; do x <- xs h (nsf (h_mat h)) fi gp; do v <- rd (h_vol h) fi; Ok (s * x * v)%R).

(** Lines 81-85 *)
Definition group_map (ngroups : nat) (cgs : list nat) : res (list nat) :=
  do r <- for_ 0 (length cgs) (repeat 0 ngroups, 0) (fun cg s =>
    do c <- rd cgs cg;
    for_ 0 c s (fun _ s => do m <- wr (fst s) (snd s) cg; Ok (m, snd s + 1)));
  Ok (fst r).

(** Lines 123, 153-154 *)
Definition acc_scatter (h : hom) (fgcg : list nat) (start count off : nat) (v : list (list R)) : res (list (list R)) :=
  for_ start (start + count) v (fun fg v =>
    for_ 0 (h_n h) v (fun fi v =>
      for_ 0 (ng (h_mat h)) v (fun gp v =>
        do ci <- rd (h_reg h) fi; do p <- pv h fg fi;
        do x <- xs h (fun g k => ss (h_mat h) gp g k) fi (fg + off);
        do cgp <- rd fgcg gp;
        do row <- rd v ci; do y <- rd row cgp;
        do row <- wr row cgp (y + p * x)%R; wr v ci row))).

(** Lines 160-182 for one coarse cell. *)
Definition set_coarse (dc : dc_option) (ncg cg ci : nat)
    (phi_vol cur_vol t a f nf ch fd d : R) (s : list R) (c : mtl) : res mtl :=
  if Rlt_dec 0 t then
    let c := set_field c FT ci cg (t / phi_vol)%R in
    let c := set_field c FA ci cg (a / phi_vol)%R in
    let c := if Rlt_dec 0 f then
        let c := set_field c FSF ci cg (f / phi_vol)%R in
        let c := set_field c FNSF ci cg (nf / phi_vol)%R in
        let c := set_field c FNU ci cg (nf / f)%R in
        set_field c FCHI ci cg (ch / fd)%R
      else c in
    do c <- for_ 0 ncg c (fun cgp c => do x <- rd s cgp; Ok (set_scatter c ci cgp cg (x / phi_vol)%R));
    Ok (match dc with
        | PHI_D | CURRENT_D => set_field c FDC ci cg (d / cur_vol)%R
        | PHI_SIGMA_TR => set_field c FDC ci cg (1 / (3 * st c cg ci))%R
        end)
  else Ok c.

(** One pass of the loop over coarse groups, lines 112-186; state: coarse
    material, coarse flux, next fine group. *)
Definition hom_group (h : hom) (fgcg cgs : list nat) (off ncc cg : nat)
    (st0 : mtl * list (list R) * nat) : res (mtl * list (list R) * nat) :=
  let '(c, flux, fg) := st0 in
  do cnt <- rd cgs cg;
  let z := repeat 0%R ncc in
  let ar := acc_region h fg cnt in
  let rate f := fun fg fi => do p <- pv h fg fi; do x <- xs h f fi (fg + off); Ok (p * x)%R in
  do vol <- ar (fun _ fi => rd (h_vol h) fi) z;
  do phi_vol <- ar (pv h) z;
  do cur_vol <- ar (jv h) z;
  do t <- ar (rate (st (h_mat h))) z;
  do a <- ar (rate (sa (h_mat h))) z;
  do f <- ar (rate (sf (h_mat h))) z;
  do nf <- ar (rate (nsf (h_mat h))) z;
  do fd <- (if 0 <? cnt then acc_region h fg 1 (fun _ fi => temp_fd h fi) z else Ok z);
  do ch <- ar (fun fg fi => do q <- temp_fd h fi; do x <- xs h (chi (h_mat h)) fi (fg + off); Ok (q * x)%R) z;
  do s <- acc_scatter h fgcg fg cnt off (repeat (repeat 0%R (ng (h_mat h))) ncc);
  do d <- (match h_dc h with
           | PHI_SIGMA_TR => Ok z
           | _ => ar (fun fg fi => do j <- jv h fg fi; do x <- xs h (dc (h_mat h)) fi (fg + off); Ok (j * x)%R) z
           end);
  do r <- for_ 0 ncc (c, flux) (fun ci r =>
    do tv <- rd t ci; do av <- rd a ci; do fv <- rd f ci; do nv <- rd nf ci; do cv <- rd ch ci; do fdv <- rd fd ci;
    do dv <- rd d ci; do pvv <- rd phi_vol ci; do jvv <- rd cur_vol ci; do vv <- rd vol ci; do sv <- rd s ci;
    do c <- set_coarse (h_dc h) (length cgs) cg ci pvv jvv tv av fv nv cv fdv dv sv (fst r);
    do row <- rd (snd r) cg; do row <- wr row ci (pvv / vv)%R; do fl <- wr (snd r) cg row;
    Ok (c, fl));
  Ok (fst r, snd r, fg + cnt).

(** Homogenize.cc 65-202; [off] is groups[0] after the reversal of line 77-78,
    [cgs] the (completed) coarsegroup argument. *)
Definition homogenize (h : hom) (cgs : list nat) (off : nat) : res (mtl * list (list R)) :=
  do fgcg <- group_map (ng (h_mat h)) cgs;
  do mx <- max_element (h_reg h);
  let ncc := mx + 1 in
  do r <- for_ 0 (length cgs) (material_new ncc (length cgs), repeat (repeat 0%R ncc) (length cgs), 0)
            (hom_group h fgcg cgs off ncc);
  Ok (finalize (fst (fst r)), snd (fst r)).

(** ** CoarseMesh *)

(** The data of one dimension, CoarseMesh.cc 51-98: fine cells per coarse
    cell, coarse edges, fine-to-coarse map, coarse edge flags (-1 if a fine
    edge is not a coarse edge).  [w] are the fine widths. *)
Record coarse1 := { c_count : list nat; c_edges : list R; c_map : list nat; c_flag : list Z }.

(** CoarseMesh.cc 58-70; remainder by zero and writes past the end are UB. *)
Definition coarse_counts (n level : nat) : res (list nat) :=
  if level =? 0 then UB
  else
    let r := n mod level in
    let nc := (n - r) / level in
    let v := repeat level nc in
    if nc =? 1 then do y <- rd v 0; wr v 0 (y + r)
    else for_ 0 r v (fun i v => do y <- rd v i; wr v i (y + 1)).

Definition coarsen (w : list R) (level : nat) : res coarse1 :=
  let n := length w in
  do cnt <- coarse_counts n level;
  let nc := length cnt in
  do fl <- wr (repeat (-1)%Z (n + 1)) 0 0%Z;
  do r <- for_ 0 nc (repeat 0%R (nc + 1), repeat 0 n, fl, 0) (fun c s =>
    let '(edges, f2c, fl, f_start) := s in
    do e <- rd edges c;
    do k <- rd cnt c;
    do ef <- for_ f_start (f_start + k) (e, f2c) (fun f s =>
       do x <- rd w f; do m <- wr (snd s) f c; Ok ((fst s + x)%R, m));
    do edges <- wr edges (c + 1) (fst ef);
    do fl <- wr fl (f_start + k) (Z.of_nat c + 1)%Z;
    Ok (edges, snd ef, fl, f_start + k));
  let '(edges, f2c, fl, _) := r in
  Ok {| c_count := cnt; c_edges := edges; c_map := f2c; c_flag := fl |}.

(** CoarseMesh.cc 125-143: the map of fine cells to coarse cells.  In unused
    dimensions there is one fine cell with coarse index 0. *)
Definition fine_to_coarse_map (cx cy cz : coarse1) : res (list nat) :=
  let nx := length (c_map cx) in
  let ny := length (c_map cy) in
  let nz := length (c_map cz) in
  let mx := length (c_count cx) in
  let my := length (c_count cy) in
  for3 nx ny nz (repeat 0 (nx * ny * nz)) (fun i j k v =>
    do kk <- rd (c_map cz) k; do jj <- rd (c_map cy) j; do ii <- rd (c_map cx) i;
    wr v (index nx ny i j k) (index mx my ii jj kk)).
