(** * Model of detran_geometry meshes, assemblies and cores
    Source: /repo/src/geometry/Mesh.i.hh, Mesh.cc, Mesh1D.cc, Mesh2D.cc,
    Assembly.cc, Core.cc.
    Simplifications: unsigned 32-bit arithmetic does not wrap (a mesh has
    fewer than 2^32 cells); floor(double(a)/double(b)) is integer division;
    int(std::sqrt(n)) is the integer square root; [double] is [R]. *)
From Verif Require Import Base BaseR Loop.
Open Scope nat_scope.

Record mesh := {
  dim : nat;
  xfm : list nat; yfm : list nat; zfm : list nat;
  xcme : list R; ycme : list R; zcme : list R;
  mdx : list R; mdy : list R; mdz : list R;
  twx : R; twy : R; twz : R;
  mat : list Z }.

(** Mesh.cc 175-178: d_number_cells_x etc. *)
Definition ncx (m : mesh) := list_sum (xfm m).
Definition ncy (m : mesh) := list_sum (yfm m).
Definition ncz (m : mesh) := list_sum (zfm m).
Definition ncells (m : mesh) := ncx m * ncy m * ncz m.

(** Mesh.i.hh 120-129 *)
Definition index (nx ny i j k : nat) : nat := i + j * nx + k * nx * ny.
(** Mesh.i.hh 132-139, 140-149, 150-158 *)
Definition cell_to_i (nx c : nat) : nat := c mod nx.
Definition cell_to_j (nx ny c : nat) : nat := (c mod (nx * ny)) / nx.
Definition cell_to_k (nx ny c : nat) : nat := c / (nx * ny).

(** Mesh.i.hh 89-97 *)
Definition volume (m : mesh) (c : nat) : res R :=
  do x <- rd (mdx m) (cell_to_i (ncx m) c);
  do y <- rd (mdy m) (cell_to_j (ncx m) (ncy m) c);
  do z <- rd (mdz m) (cell_to_k (ncx m) (ncy m) c);
  Ok (x * y * z)%R.

(** Mesh.cc 195-205 (and 206-218, 219-228): widths along one axis. *)
Definition widths (fm : list nat) (cme : list R) : res (list R) :=
  do r <- for_ 0 (length fm) (repeat 0%R (list_sum fm), 0) (fun i s =>
    let ph := snd s in
    do f <- rd fm i;
    do d <- for_ ph (ph + f) (fst s) (fun ii d =>
      do e1 <- rd cme (i + 1);
      do e0 <- rd cme i;
      wr d ii ((e1 - e0) / INR f)%R);
    Ok (d, psum fm (i + 1)));
  Ok (fst r).

(** Mesh.cc 186-192: total width along one axis. *)
Definition total (cme : list R) : res R :=
  do e <- rd cme (length cme - 1);
  do b <- rd cme 0;
  Ok (e - b)%R.

(** Mesh.cc 64-114: expansion of a coarse mesh map. *)
Definition add_coarse_mesh_map (xfm yfm zfm : list nat) (m_map : list Z) : res (list Z) :=
  let nx := list_sum xfm in
  let ny := list_sum yfm in
  let nz := list_sum zfm in
  do r <- for_ 0 (length zfm) (repeat 0%Z (nx * ny * nz), (0, (0, 0))) (fun k s =>
    let '(tmp, (i_save, (j_save, k_save))) := s in
    do fz <- rd zfm k;
    do s2 <- for_ 0 (length yfm) (tmp, (i_save, j_save)) (fun j s =>
      let '(tmp, (i_save, j_save)) := s in
      do fy <- rd yfm j;
      do s3 <- for_ 0 (length xfm) (tmp, i_save) (fun i s =>
        let '(tmp, i_save) := s in
        do fx <- rd xfm i;
        do tmp <- for_ k_save (k_save + fz) tmp (fun kk tmp =>
          for_ j_save (j_save + fy) tmp (fun jj tmp =>
            for_ i_save (i_save + fx) tmp (fun ii tmp =>
              do v <- rd m_map (i + j * length xfm + k * length xfm * length yfm);
              wr tmp (ii + jj * nx + kk * nx * ny) v)));
        Ok (tmp, psum xfm (i + 1)));
      Ok (fst s3, (0, psum yfm (j + 1))));
    Ok (fst s2, (fst (snd s2), (0, psum zfm (k + 1)))));
  Ok (fst r).

(** Mesh.cc 152-230 and 17-39: the constructor from coarse data. *)
Definition mesh_new (d : nat) (xfm yfm zfm : list nat) (xcme ycme zcme : list R) (mm : list Z) : res mesh :=
  do tx <- total xcme; do ty <- total ycme; do tz <- total zcme;
  do wx <- widths xfm xcme; do wy <- widths yfm ycme; do wz <- widths zfm zcme;
  do mp <- add_coarse_mesh_map xfm yfm zfm mm;
  Ok {| dim := d; xfm := xfm; yfm := yfm; zfm := zfm; xcme := xcme; ycme := ycme; zcme := zcme;
        mdx := wx; mdy := wy; mdz := wz;
        twx := tx; twy := (if d <? 2 then 1%R else ty); twz := (if d <? 3 then 1%R else tz);
        mat := mp |}.

(** Mesh1D.cc 15-33: y and z have one cell, whose width is set to one. *)
Definition mesh1D (xfm : list nat) (xcme : list R) (mm : list Z) : res mesh :=
  do m <- mesh_new 1 xfm [1] [1] xcme [0%R; 0%R] [0%R; 0%R] mm;
  Ok {| dim := 1; xfm := Mesh_Model.xfm m; yfm := yfm m; zfm := zfm m; xcme := Mesh_Model.xcme m;
        ycme := [0%R; 1%R]; zcme := [0%R; 1%R]; mdx := mdx m; mdy := upd (mdy m) 0 1%R; mdz := upd (mdz m) 0 1%R;
        twx := twx m; twy := twy m; twz := twz m; mat := mat m |}.
(** Mesh2D.cc 15-30. *)
Definition mesh2D (xfm yfm : list nat) (xcme ycme : list R) (mm : list Z) : res mesh :=
  do m <- mesh_new 2 xfm yfm [1] xcme ycme [0%R; 0%R] mm;
  Ok {| dim := 2; xfm := Mesh_Model.xfm m; yfm := Mesh_Model.yfm m; zfm := zfm m; xcme := Mesh_Model.xcme m;
        ycme := Mesh_Model.ycme m; zcme := [0%R; 1%R]; mdx := mdx m; mdy := mdy m; mdz := upd (mdz m) 0 1%R;
        twx := twx m; twy := twy m; twz := twz m; mat := mat m |}.
(** Mesh3D.cc 15-28. *)
Definition mesh3D := mesh_new 3.

(** Mesh.i.hh 179-189: the search along one axis; 0 when not found. *)
Fixpoint find_axis (x edge : R) (i : nat) (w : list R) : nat :=
  match w with
  | [] => 0
  | a :: r => let edge := (edge + a)%R in
              if Rle_dec x edge then i else find_axis x edge (S i) r
  end.

Definition outside (x w : R) : bool :=
  if Rlt_dec x 0 then true else if Rlt_dec w x then true else false.

(** Mesh.i.hh 161-195: find_cell; [None] is -1. *)
Definition find_cell (m : mesh) (p : R * R * R) : option nat :=
  let '(x, y, z) := p in
  if outside x (twx m) || outside y (twy m) || outside z (twz m) then None
  else
    let i := if 0 <? dim m then find_axis x 0%R 0 (mdx m) else 0 in
    let j := if 1 <? dim m then find_axis y 0%R 0 (mdy m) else 0 in
    let k := if 2 <? dim m then find_axis z 0%R 0 (mdz m) else 0 in
    Some (index (ncx m) (ncy m) i j k).

(** ** Assembly *)

(** The mesh data of a pin cell that Assembly uses. *)
Record pin := { pnx : nat; pny : nat; pdy : list R; pmat : list Z; preg : list Z }.

(** The result: edges (shared by x and y) and maps. *)
Record assembly := { a_edges : list R; a_nx : nat; a_mat : list Z; a_reg : list Z; a_pin : list Z }.

(** Assembly.cc 108-114: edges of one row of pins. *)
Definition row_edges (edges : list R) (j1 j2 : nat) (dy : list R) : res (list R) :=
  for_ j1 j2 edges (fun jj edges =>
    do e <- rd edges jj; do w <- rd dy (jj - j1); wr edges (jj + 1) (e + w)%R).

(** Assembly.cc 142-153: one pin's values. *)
Definition fill_block (i1 i2 j1 j2 nx : nat) (src : list Z) (f : Z -> Z) (a : list Z) : res (list Z) :=
  do r <- for_ j1 j2 (a, 0) (fun jj s =>
    for_ i1 i2 s (fun ii s =>
      do v <- rd src (snd s);
      do a <- wr (fst s) (ii + jj * nx) (f v);
      Ok (a, snd s + 1)));
  Ok (fst r).

(** Assembly.cc 56-169: finalize; nx0 ny0 are the constructor's arguments.
    The three interleaved map fills of lines 143-153 are written as three
    separate ones. *)
Definition assembly_finalize (nx0 ny0 : nat) (pins : list pin) (pmap : list nat) : res assembly :=
  do p0 <- rd pins 0;
  if negb (forallb (fun p => (pnx p0 =? pnx p) && (pny p0 =? pny p)) pins) then Err
  else if negb (length pmap =? nx0 * ny0) then Err
  else
    let row := Nat.sqrt (length pmap) in
    let ncx := pnx p0 * row in
    let ncy := pnx p0 * row in
    let n := ncx * ncy in
    let body j i s :=
      let '((mt, rg, pn), (pin_count, (i_save, j_save))) := s in
      do q <- rd pmap (i + j * row);
      do p <- rd pins q;
      let i2 := i_save + pnx p0 in
      let j2 := j_save + pny p0 in
      do mt <- fill_block i_save i2 j_save j2 ncx (pmat p) (fun v => v) mt;
      do rg <- fill_block i_save i2 j_save j2 ncx (preg p) (fun v => v) rg;
      do pn <- fill_block i_save i2 j_save j2 ncx (preg p) (fun _ => Z.of_nat pin_count) pn;
      Ok ((mt, rg, pn), (pin_count + 1, (i_save + pnx p0, j_save)))
    in
    do r <- for_ 0 row (repeat 0%R (ncx + 1), ((repeat 0%Z n, repeat 0%Z n, repeat 0%Z n), (0, (0, 0)))) (fun j s =>
      let '(ed, (maps, (pc, (i_save, j_save)))) := s in
      do q <- rd pmap (j * row);
      do p <- rd pins q;
      do ed <- row_edges ed j_save (j_save + pny p0) (pdy p);
      do s2 <- for_ 0 row (maps, (pc, (i_save, j_save))) (fun i s => body j i s);
      let '(maps, (pc, (_, js))) := s2 in
      Ok (ed, (maps, (pc, (0, js + pny p0)))));
    let '(ed, ((mt, rg, pn), _)) := r in
    Ok {| a_edges := ed; a_nx := ncx; a_mat := mt; a_reg := rg; a_pin := pn |}.

(** ** Core *)

(** The mesh data of an assembly that Core uses (anx = number_cells_x etc.);
    adim is Assembly::dimension(). *)
Record apart := { anx : nat; any : nat; ady : list R; amat : list Z; areg : list Z; apin : list Z }.
Record core := { k_edges : list R; k_nx : nat; k_mat : list Z; k_reg : list Z; k_pin : list Z; k_ass : list Z }.

(** Core.cc 44-180: finalize for a dimension x dimension core.  The unused
    vector core_pins (lines 70-94) is not modelled; the four interleaved fills
    are separated. *)
Definition core_finalize (dimension : nat) (adim : nat) (parts : list apart) (amap : list nat) : res core :=
  if negb (length amap =? dimension * dimension) then Err
  else
    do p0 <- rd parts 0;
    let row := Nat.sqrt (length amap) in
    let ncx := anx p0 * row in
    let ncy := anx p0 * row in
    let n := ncx * ncy in
    let npins := adim * adim in
    let body j i s :=
      let '((mt, rg, pn, sn), (cnt, (i_save, j_save))) := s in
      do q <- rd amap (i + j * row);
      do p <- rd parts q;
      let i2 := i_save + anx p0 in
      let j2 := j_save + any p0 in
      do mt <- fill_block i_save i2 j_save j2 ncx (amat p) (fun v => v) mt;
      do rg <- fill_block i_save i2 j_save j2 ncx (areg p) (fun v => v) rg;
      do pn <- fill_block i_save i2 j_save j2 ncx (apin p) (fun v => (v + Z.of_nat (cnt * npins))%Z) pn;
      do sn <- fill_block i_save i2 j_save j2 ncx (apin p) (fun _ => Z.of_nat cnt) sn;
      Ok ((mt, rg, pn, sn), (cnt + 1, (i_save + anx p0, j_save)))
    in
    do r <- for_ 0 row (repeat 0%R (ncx + 1), ((repeat 0%Z n, repeat 0%Z n, repeat 0%Z n, repeat 0%Z n), (0, (0, 0)))) (fun j s =>
      let '(ed, (maps, (pc, (i_save, j_save)))) := s in
      do q <- rd amap (j * row);
      do p <- rd parts q;
      do ed <- row_edges ed j_save (j_save + any p0) (ady p);
      do s2 <- for_ 0 row (maps, (pc, (i_save, j_save))) (fun i s => body j i s);
      let '(maps, (pc, (_, js))) := s2 in
      Ok (ed, (maps, (pc, (0, js + any p0)))));
    let '(ed, ((mt, rg, pn, sn), _)) := r in
    Ok {| k_edges := ed; k_nx := ncx; k_mat := mt; k_reg := rg; k_pin := pn; k_ass := sn |}.
