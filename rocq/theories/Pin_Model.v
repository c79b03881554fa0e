(** * Pin_Model: pin cells, as meshes and as regions
    Source: /repo/src/geometry/PinCell.cc, RegionFactory.cc (CreatePinCell,
    CreateAssembly), Mesh.cc 42-60 and Mesh2D.cc 32-44 (the mesh given by its fine
    edges).
    Simplifications: double is R and std::floor the floor; printing and warnings
    are left out; number_meshes is not negative. *)
From Verif Require Import Base BaseR Loop Mesh_Model Csg_Model.
Open Scope nat_scope.

Record pincell := { pc_pitch : point; pc_mat : list Z; pc_div : nat; pc_radii : list R; pc_center : point }.

(** PinCell.cc 32-42: positive and increasing radii. *)
Fixpoint increasing (l : list R) : bool :=
  match l with a :: (b :: _) as t => (if Rlt_dec a b then true else false) && increasing t | _ => true end.
Definition radii_ok (l : list R) : bool :=
  match l with [] => true | a :: _ => (if Rlt_dec 0 a then true else false) && increasing l end.
(** PinCell.cc 19-48.  A missing pitch in y is that in x (and z is lost then). *)
Definition pincell_new (pitch : point) (mats : list Z) (radii : list R) (division : nat) (center : point) : res pincell :=
  if Rlt_dec 0 (px pitch) then
    if (length mats =? length radii + 1) && (division <? 4) && radii_ok radii then
      Ok {| pc_pitch := if Rle_dec (py pitch) 0 then P3 (px pitch) (px pitch) 0 else pitch;
            pc_mat := mats; pc_div := division; pc_radii := radii; pc_center := center |}
    else Err
  else Err.

(** PinCell.cc 215-232 *)
Fixpoint first_ring (d : R) (p : nat) (radii : list R) : nat :=
  match radii with [] => p | r :: t => if Rlt_dec d r then p else first_ring d (S p) t end.
Definition find_region (P : pincell) (i j : nat) (width : R) : nat :=
  let x := ((INR i + / 2) * width)%R in
  let y := ((INR j + / 2) * width)%R in
  let hp := (/ 2 * px (pc_pitch P))%R in
  first_ring (sqrt ((x - hp) * (x - hp) + (y - hp) * (y - hp))) 0 (pc_radii P).

(** Mesh2D.cc 32-44, Mesh.cc 42-60 and 152-230: one cell per interval; the
    material map is taken as it is. *)
Definition mesh2D_edges (xe ye : list R) (mm : list Z) : res mesh :=
  let ones (l : list R) := repeat 1 (length l - 1) in
  do tx <- total xe; do ty <- total ye;
  do wx <- widths (ones xe) xe; do wy <- widths (ones ye) ye; do wz <- widths [1] [0%R; 0%R];
  Ok {| dim := 2; xfm := ones xe; yfm := ones ye; zfm := [1]; xcme := xe; ycme := ye; zcme := [0%R; 1%R];
        mdx := wx; mdy := wy; mdz := upd wz 0 1%R; twx := tx; twy := ty; twz := 1%R; mat := mm |}.

(** PinCell.cc 70-108: uniform mesh with the material at the cell centers.  The
    result is the mesh and its region map. *)
Definition uniform (P : pincell) (n : nat) : res (mesh * list Z) :=
  let width := (px (pc_pitch P) / INR n)%R in
  do s <- for_ 0 n (repeat 0%R (n + 1), (repeat 1%Z (n * n), repeat 1%Z (n * n))) (fun j s =>
    do e <- rd (fst s) j;
    do ed <- wr (fst s) (j + 1) (e + width)%R;
    do mr <- for_ 0 n (snd s) (fun i s =>
      let r := find_region P i j width in
      do m <- rd (pc_mat P) r;
      do mm <- wr (fst s) (i + j * n) m;
      do rm <- wr (snd s) (i + j * n) (Z.of_nat r);
      Ok (mm, rm));
    Ok (ed, mr));
  do m <- mesh2D_edges (fst s) (fst s) (fst (snd s));
  Ok (m, snd (snd s)).

(** PinCell.cc 113-118 *)
Definition fit_L (P : pincell) : R := (160496875 / 100000000 * nth 0 (pc_radii P) 0)%R.
Definition fit_delta (P : pincell) : R := (17622398103179 / 100000000000000 * nth 0 (pc_radii P) 0)%R.
Definition fit_mod (P : pincell) : R := (/ 2 * px (pc_pitch P) - / 2 * fit_L P - fit_delta P)%R.

(** PinCell.cc 120-165: cells in moderator, step, quarter and half of the square. *)
Definition fit_counts (P : pincell) (n : nat) : Z * Z * Z * Z :=
  let hp := (/ 2 * px (pc_pitch P))%R in
  let N := Z.of_nat n in
  let md := Z.max (Int_part (/ 2 * INR n * fit_mod P / hp)) 1 in
  let dl := Z.max (Int_part (/ 2 * INR n * fit_delta P / hp)) 1 in
  let l4 := Z.max (Int_part (/ 2 * INR n * (/ 4 * fit_L P) / hp)) 1 in
  let l2 := Z.max (Int_part (/ 4 * INR n * fit_L P / hp) - 1) (N - 2 * (md + dl + l4)) in
  let s := (2 * md + 2 * dl + 2 * l4 + l2)%Z in
  let '(l2, s) := if (0 <? N - s)%Z then (l2 + 1, s + 1)%Z else (l2, s) in
  let '(l4, s) := if (1 <? N - s)%Z then (l4 + 1, s + 2)%Z else (l4, s) in
  let '(md, s) := if (1 <? N - s)%Z then (md + 1, s + 2)%Z else (md, s) in
  let '(dl, s) := if (1 <? N - s)%Z then (dl + 1, s + 2)%Z else (dl, s) in
  let l2 := if (0 <? N - s)%Z then (l2 + 1)%Z else l2 in
  (md, dl, l4, l2).

(** PinCell.cc 166-207.  A negative count (an Ensure of a debug build) gives a mesh
    with overlapping cells, which is not modelled further. *)
Definition fuel_index : list nat := [10; 16; 17; 18; 22; 23; 24; 25; 26; 30; 31; 32; 38].
Definition fit_edges (P : pincell) : list R :=
  let w := fit_mod P in let d := fit_delta P in let L := fit_L P in
  let e1 := w in
  let e2 := (e1 + d)%R in
  let e3 := (e2 + / 4 * L)%R in
  let e4 := (e3 + / 2 * L)%R in
  let e5 := (e4 + / 4 * L)%R in
  let e6 := (e5 + d)%R in
  [0%R; e1; e2; e3; e4; e5; e6; (e6 + w)%R].
Definition best_fit (P : pincell) (n : nat) : res (mesh * list Z) :=
  let '(md, dl, l4, l2) := fit_counts P n in
  if (l2 <? 0)%Z then Err else
  let fine := map Z.to_nat [md; dl; l4; l2; l4; dl; md] in
  do m0 <- rd (pc_mat P) 0;
  do m1 <- rd (pc_mat P) 1;
  let material := fold_left (fun l i => upd l i m0) fuel_index (repeat m1 49) in
  let regions := fold_left (fun l i => upd l i 0%Z) fuel_index (repeat 1%Z 49) in
  do m <- mesh2D fine fine (fit_edges P) (fit_edges P) material;
  do rm <- add_coarse_mesh_map fine fine [1] regions;
  Ok (m, rm).

(** PinCell.cc 51-212 *)
Definition meshify (P : pincell) (n : nat) (flag : bool) : res (mesh * list Z) :=
  let flag := flag && (length (pc_radii P) =? 1) in
  let flag := flag && (7 <=? n) in
  if flag then best_fit P n else uniform P n.

(** ** Regions *)

(** RegionFactory.cc 44-68: the dividing planes with their senses. *)
Definition partitions (P : pincell) : list (quadric * bool) :=
  let '(x, y) := (px (pc_pitch P), py (pc_pitch P)) in
  let hv := (pc_div P =? 1) || (pc_div P =? 3) in
  let diag := (pc_div P =? 2) || (pc_div P =? 3) in
  (if hv then [(plane 0 1 0 (/ 2 * y - py (pc_center P)), true)] else []) ++
  (if diag then [(plane (y / x) (-1) 0 0, false)] else []) ++
  (if hv then [(plane 1 0 0 (/ 2 * x - px (pc_center P)), false)] else []) ++
  (if diag then [(plane (y / x) 1 0 y, false)] else []).

(** RegionFactory.cc 70-75 *)
Definition cylinders (P : pincell) : list quadric :=
  map (cylinderZ (px (pc_center P) + px (pc_pitch P) * / 2) (py (pc_center P) + py (pc_pitch P) * / 2)) (pc_radii P).

(** RegionFactory.cc 31-42, 106-111: the sides of the cell. *)
Definition sides (P : pincell) : list node :=
  let p := pc_pitch P in
  [Prim (plane 1 0 0 0) true; Prim (plane 1 0 0 (px p)) false; Prim (plane 0 1 0 0) true; Prim (plane 0 1 0 (py p)) false] ++
  (if Rlt_dec 0 (pz p) then [Prim (plane 0 0 1 0) true; Prim (plane 0 0 1 (pz p)) false] else []).

(** RegionFactory.cc 113-127: the two planes of sector a. *)
Definition sector (ps : list (quadric * bool)) (a : nat) : list node :=
  match ps with
  | [] => []
  | (q0, l0) :: _ =>
      let n := length ps in
      let side k b := let '(q, l) := nth k ps (q0, l0) in Prim q (if b : bool then negb l else l) in
      [side (a mod n) (negb (a / n =? 0)); side ((a + 1) mod n) (((a + 1) / n) mod 2 =? 0)]
  end.

(** RegionFactory.cc 92-131: the region of ring r and sector a. *)
Definition pin_nodes (P : pincell) (r a : nat) : list node :=
  let cs := cylinders P in
  (match nth_error cs r with Some c => [Prim c false] | None => [] end) ++
  (if 0 <? r then match nth_error cs (r - 1) with Some c => [Prim c true] | None => [] end else []) ++
  (if r =? length cs then sides P else []) ++
  sector (partitions P) a.
Definition pin_eps : R := (/ 10 ^ 8)%R.
Definition pin_region (P : pincell) (m : Z) (r a : nat) : region :=
  let p := pc_pitch P in
  {| rnode := fold_left (fun cur n => append_node cur n OInter) (pin_nodes P r a) None;
     rmin := P3 (0 - pin_eps) (0 - pin_eps) (0 - pin_eps);
     rmax := P3 (px p + pin_eps) (py p + pin_eps) (pz p + pin_eps); rmat := m |}.
Definition divisions (P : pincell) : nat := Nat.max 1 (2 * length (partitions P)).
(** RegionFactory.cc 17-137.  The constructor has already replaced a pitch y of
    zero (lines 22-25). *)
Definition create_pin_cell (P : pincell) : res (list region) :=
  do rs <- mapM (fun r => do m <- rd (pc_mat P) r; Ok (map (pin_region P m r) (seq 0 (divisions P))))
                (seq 0 (length (pc_radii P) + 1));
  Ok (concat rs).

(** RegionFactory.cc 140-169: pins of an assembly with nx times ny places; the
    places are visited column by column. *)
Definition create_assembly (nx ny : nat) (pins : list pincell) (pmap : list nat) : res (list region) :=
  do rs <- mapM create_pin_cell pins;
  do p0 <- rd pins 0;
  do cols <- mapM (fun i =>
    do col <- mapM (fun j =>
      do p <- rd pmap (i + j * nx);
      do r <- rd rs p;
      mapM (fun r => translated_region r (P3 (px (pc_pitch p0) * INR i) (py (pc_pitch p0) * INR j) 0)) r)
      (seq 0 ny);
    Ok (concat col))
    (seq 0 nx);
  Ok (concat cols).
