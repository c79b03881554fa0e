(** * Model of the pictures of meshes, fluxes and geometries
    Source: /repo/src/ioutils/PPMOutput.cc, PPMPlotter.{hh,cc}, ColorMap.{hh,cc}.
    Simplifications: a file is its width, height and pixels; the messages on
    missing cells are left out; the colour map RANDOM is not modelled; double
    arithmetic is real arithmetic, a division by zero (a NaN or infinity, which
    is then converted to an unsigned char) is undefined behaviour. *)
From Verif Require Import Base BaseR Loop Util_Model Mesh_Model Csg_Model.
Open Scope R_scope.
Open Scope nat_scope.
Set Implicit Arguments.

(** std::ceil and the conversion of a double to an integer. *)
Definition ceil (x : R) : Z := (- Int_part (- x)%R)%Z.
Definition trunc (x : R) : Z := if Rle_dec 0 x then Int_part x else (- Int_part (- x)%R)%Z.
(** Conversion to unsigned char: undefined unless the truncated value fits. *)
Definition byte (x : R) : res Z :=
  let z := trunc x in if ((0 <=? z) && (z <=? 255))%Z then Ok z else UB.
(** std::min. *)
Definition min_ (a b : R) : R := if Rlt_dec b a then b else a.

Record raster := { r_nx : nat; r_ny : nat; r_cells : list (option nat) }.

(** PPMOutput.cc 48-61 and 81-96: the loops over pixels; [row j] is the row
    number j is written to, the stride is d_ny in both.  [None] is -1. *)
Definition fill (nx ny : nat) (row : nat -> nat) (find : R -> R -> res (option nat)) (xs ys : list R)
  : res (list (option nat)) :=
  for_ 0 ny (repeat (Some 0) (nx * ny)) (fun j c =>
    for_ 0 nx c (fun i c =>
      do x <- rd xs i; do y <- rd ys j;
      do v <- find x y;
      wr c (i + row j * ny) v)).

(** PPMOutput.cc 28-67: initialize with a mesh; [hi] is the largest double. *)
Definition mesh_pixels (hi : R) (m : mesh) (n : nat) : nat * nat :=
  let w := min_ (vec_min hi (mdx m)) (vec_min hi (mdy m)) in
  (n * Z.to_nat (ceil (twx m / w)%R), n * Z.to_nat (ceil (twy m / w)%R)).
Definition mesh_raster (hi : R) (m : mesh) (n : nat) : res raster :=
  let '(nx, ny) := mesh_pixels hi m n in
  do c <- fill nx ny (fun j => j) (fun x y => Ok (find_cell m (x, y, 0%R)))
            (linspace 0%R (twx m) nx) (linspace 0%R (twy m) ny);
  Ok {| r_nx := nx; r_ny := ny; r_cells := c |}.

(** PPMOutput.cc 70-100: initialize with a geometry of widths wx and wy. *)
Definition geo_pixels (wx wy delta : R) : nat * nat :=
  let w := min_ (min_ delta (wx / 5)%R) (wy / 5)%R in
  (Z.to_nat (Z.max (ceil (wx / w)%R) 5), Z.to_nat (Z.max (ceil (wy / w)%R) 5)).
Definition geo_raster (geo : list region) (wx wy delta : R) : res raster :=
  let '(nx, ny) := geo_pixels wx wy delta in
  do c <- fill nx ny (fun j => ny - j - 1) (fun x y => geo_find geo (P3 x y 0%R))
            (linspace_center 0%R wx nx) (linspace_center 0%R wy ny);
  Ok {| r_nx := nx; r_ny := ny; r_cells := c |}.

(** PPMOutput.cc 113-118 and 135-140: the data of a mesh map or of the flux of
    a group; index -1 is undefined. *)
Definition mesh_data (r : raster) (values : list R) : res (list R) :=
  mapM (fun c => match c with None => UB | Some k => rd values k end) (r_cells r).
(** PPMOutput.cc 151-161. *)
Definition geo_data (geo : list region) (r : raster) (flag : bool) : res (list R) :=
  mapM (fun c => match c with
                 | None => Ok (-1)%R
                 | Some k => if flag then Ok (INR k) else do g <- rd geo k; Ok (IZR (rmat g))
                 end) (r_cells r).

(** ** Colours *)
Definition rgb := (Z * Z * Z)%type.
Inductive cmap := Default | CoolWarm | Jet | Hot | Cool.

Definition rdiv (a b : R) : res R := if Req_EM_T b 0 then UB else Ok (a / b)%R.
Definition rgb_of (r g b : R) : res rgb := do r <- byte r; do g <- byte g; do b <- byte b; Ok (r, g, b).

(** ColorMap.cc 44-75: colors_function; the colours of negative values keep
    the zeros of the value-initialised vector. *)
Definition default_rgb (v : R) : res rgb :=
  rgb_of (255 * (2 * v - v * v))%R (255 * (4 * v - 4 * v * v))%R (255 * (1 - v * v))%R.
Definition coolwarm_rgb (v : R) : res rgb :=
  rgb_of (255 * (0.5764 - 0.3312 * cos (3.788 * v) + 0.2042 * sin (3.788 * v)))%R
         (255 * (0.3989 - 0.1124 * cos (3.914 * v) + 0.4392 * sin (3.914 * v)))%R
         (255 * (0.5932 + 0.1619 * cos (4.024 * v) + 0.3747 * sin (4.024 * v)))%R.
Definition colors_function (hi lo : R) (f : R -> res rgb) (values : list R) : res (list rgb) :=
  let mn := vec_min hi values in
  let mx := vec_max lo values in
  mapM (fun x => if Rle_dec 0 x then do v <- rdiv (x - mn)%R (mx - mn)%R; f v else Ok (0, 0, 0)%Z) values.

(** ColorMap.cc 182-189: hex_to_rgb; the colours of ColorMap.hh 85-107. *)
Definition hex_to_rgb (h : Z) : rgb := ((h / 65536) mod 256, (h / 256) mod 256, h mod 256)%Z.
Definition nodes (c : cmap) : list Z :=
  match c with
  | Jet => [139; 255; 32767; 65535; 9498256; 16776960; 16753920; 16711680; 9109504]%Z
  | Hot => [0; 16711680; 16776960; 16777215]%Z
  | _ => [65535; 16711935]%Z
  end.
Definition dist (a b : rgb) : R :=
  let '(r0, g0, b0) := a in let '(r1, g1, b1) := b in
  sqrt (IZR (r1 - r0) ^ 2 + IZR (b1 - b0) ^ 2 + IZR (g1 - g0) ^ 2)%R.
(** ColorMap.cc 145-154: node positions, starting from d. *)
Fixpoint positions (d : R) (c : rgb) (cs : list rgb) : list R :=
  match cs with
  | [] => [d]
  | c1 :: cs => d :: positions (d + dist c c1)%R c1 cs
  end.
Definition node_positions (cs : list rgb) : list R :=
  match cs with
  | [] => []
  | c :: cs => let d := positions 0%R c cs in vec_scale d (1 / last d 0%R)%R
  end.
(** ColorMap.cc 158-176: the first node not below the value, interpolation. *)
Fixpoint first_node (j : nat) (d : list R) (v : R) : nat :=
  match d with
  | [] => j
  | x :: d => if Rle_dec v x then j else first_node (S j) d v
  end.
Definition mix (a b : Z) (del w : R) : R := (IZR a + IZR (b - a) * del / w)%R.
Definition interp_rgb (cs : list rgb) (v : R) : res rgb :=
  let d := node_positions cs in
  let j := first_node 0 d v in
  if j =? 0 then rd cs 0
  else if j =? List.length d then rd cs (List.length cs - 1)
  else do c0 <- rd cs (j - 1); do c1 <- rd cs j; do d0 <- rd d (j - 1); do d1 <- rd d j;
       let '(r0, g0, b0) := c0 in let '(r1, g1, b1) := c1 in
       let del := (v - d0)%R in let w := (d1 - d0)%R in
       do _ <- rdiv del w;
       rgb_of (mix r0 r1 del w) (mix g0 g1 del w) (mix b0 b1 del w).

(** ColorMap.cc 16-41: color. *)
Definition color (hi lo : R) (c : cmap) (values : list R) : res (list rgb) :=
  match c with
  | Default => colors_function hi lo default_rgb values
  | CoolWarm => colors_function hi lo coolwarm_rgb values
  | _ =>
      let mn := vec_min hi values in
      let mx := vec_max lo values in
      let scaled := vec_plus_a values (- mn)%R in
      let scaled := if Rlt_dec 0 (mx - mn)%R then vec_scale scaled (1 / (mx - mn))%R else scaled in
      mapM (interp_rgb (map hex_to_rgb (nodes c))) scaled
  end.

(** PPMPlotter.cc 26-43 and 52-74, PPMPlotter.hh 72-76: the file. *)
Record picture := { p_w : nat; p_h : nat; p_rgb : list rgb }.
Definition write (hi lo : R) (nx ny : nat) (c : cmap) (data : list R) : res picture :=
  do image <- mapM (rd data) (seq 0 (nx * ny));
  do colors <- color hi lo c image;
  do px <- mapM (rd colors) (seq 0 (nx * ny));
  Ok {| p_w := nx; p_h := ny; p_rgb := px |}.

(** PPMOutput.cc 28-145: a picture of values per cell, and 148-165 of a
    geometry. *)
Definition mesh_picture (hi lo : R) (m : mesh) (n : nat) (values : list R) : res picture :=
  do r <- mesh_raster hi m n;
  do data <- mesh_data r values;
  write hi lo (r_nx r) (r_ny r) Default data.
Definition geo_picture (hi lo : R) (geo : list region) (wx wy delta : R) (flag : bool) (c : cmap) : res picture :=
  do r <- geo_raster geo wx wy delta;
  do data <- geo_data geo r flag;
  write hi lo (r_nx r) (r_ny r) c data.
