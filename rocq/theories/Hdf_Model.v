(** * Model of detran_ioutils::IO_HDF5
    Source: /repo/src/ioutils/IO_HDF5.{hh,cc}, IO_HDF5.t.hh, IO_HDF5_Traits.hh,
    built with HDF5 enabled.
    Simplifications: the HDF5 library is modelled, not verified: a file is a
    tree of groups with attributes, maps (the compound KEY/VALUE datasets) and
    vectors of doubles.  Used of its documented behaviour: creating a link
    that exists, or writing to a file opened read only, fails with a negative
    identifier, and calls on a negative identifier fail without effect;
    closing a file leaves it open in the library while an object in it is
    open; H5F_ACC_TRUNC fails for a file the library has open; strings are C
    strings.  Not modelled (outcome UB): link names that are empty, ".", or
    have a slash or a zero byte, empty strings, writing through a read only
    identifier to a file the library also has open for writing.  int and the
    32-bit file type are Z; double is R.  One file and one process. *)
From Coq Require Import String Ascii DecimalString.
From Verif Require Import Base BaseR Util_Model Material_Model Mesh_Model Csg_Model.
Open Scope string_scope.
Open Scope nat_scope.
Set Implicit Arguments.

(** An input database with its nested databases. *)
Inductive idb := IDB (d : db idb).

(** ** The file *)
Inductive mdata :=
| DInt (l : smap Z) | DDbl (l : smap R) | DStr (l : smap string)
| DVecInt (l : smap (list Z)) | DVecDbl (l : smap (list R)).
Inductive node :=
| Grp (atts : list (string * Z)) (kids : list (string * node))
| Map (d : mdata)
| Vec (l : list R).

(** std::string to char* and into the file: up to the first zero byte. *)
Fixpoint cut (s : string) : string :=
  match s with
  | EmptyString => EmptyString
  | String c r => if (nat_of_ascii c =? 0) then EmptyString else String c (cut r)
  end.
Fixpoint has (a : nat) (s : string) : bool :=
  match s with EmptyString => false | String c r => (nat_of_ascii c =? a) || has a r end.
(** Link names with modelled behaviour: no slash (47), no zero byte. *)
Definition plain (s : string) : bool :=
  negb (s =? "")%string && negb (s =? ".")%string && negb (has 47 s) && negb (has 0 s).

(** IO_HDF5_Traits.hh 75-104, 110-120: keys and string values become C
    strings; reading an empty one is not modelled. *)
Definition entries {V} (m : smap V) : smap V := map (fun e => (cut (fst e), snd e)) m.
Definition text_of (s : string) : res string := if (s =? "")%string then UB else Ok s.

(** ** The session: the file on disk, the number of objects of the file left
    open in the library, and d_open with the access of d_file_id. *)
Inductive access := RO | RW | Mixed.
Record session := { disk : option node; held : nat; file : option access }.
Definition fresh_session (d : option node) : session := {| disk := d; held := 0; file := None |}.

(** IO_HDF5.cc 38-48. *)
Definition open_read (s : session) : res session :=
  match disk s with
  | None => Err
  | Some _ => Ok {| disk := disk s; held := held s; file := Some (if held s =? 0 then RO else Mixed) |}
  end.
Definition open_write (s : session) : res session :=
  if held s =? 0 then Ok {| disk := Some (Grp [] []); held := 0; file := Some RW |} else Err.
Definition for_writing (s : session) : res session := match file s with Some _ => Ok s | None => open_write s end.
Definition for_reading (s : session) : res session := match file s with Some _ => Ok s | None => open_read s end.
(** IO_HDF5.cc 205-213. *)
Definition close (s : session) : session := {| disk := disk s; held := held s; file := None |}.

(** H5Gcreate in the root and the writes below the new group, which leave [h]
    objects open. *)
Definition add_root (s : session) (name : string) (n : node) (h : nat) : res session :=
  match file s, disk s with
  | Some RW, Some (Grp a kids) =>
      match mfind name kids with
      | Some _ => Ok s
      | None => Ok {| disk := Some (Grp a (kids ++ [(name, n)])); held := held s + h; file := file s |}
      end
  | Some RO, Some _ => Ok s
  | _, _ => UB
  end.
Definition root_kids (s : session) : res (list (string * node)) :=
  match disk s with Some (Grp _ kids) => Ok kids | _ => UB end.

(** ** Input databases *)

(** IO_HDF5.cc 59-80; IO_HDF5.t.hh 123-204: the groups db_data are not
    closed. *)
Fixpoint write_node (d : idb) : res (node * nat) :=
  match d with
  | IDB r =>
    do q <- (fix go (l : list (string * idb)) : res (list (string * node) * nat) :=
      match l with
      | [] => Ok ([], 0)
      | (k, e) :: t =>
          if plain k then do x <- write_node e; do y <- go t; Ok ((k, fst x) :: fst y, snd x + snd y) else UB
      end) (m_db r);
    Ok (Grp [] [("int_data", Map (DInt (entries (m_int r))));
                ("dbl_data", Map (DDbl (entries (m_dbl r))));
                ("str_data", Map (DStr (map (fun e => (cut (fst e), cut (snd e))) (m_str r))));
                ("vec_int_data", Map (DVecInt (entries (m_vec_int r))));
                ("vec_dbl_data", Map (DVecDbl (entries (m_vec_dbl r))));
                ("db_data", Grp [] (fst q))], S (snd q))
  end.
Definition write_input (s : session) (d : idb) : res session :=
  do s <- for_writing s;
  do q <- write_node d;
  add_root s "input" (fst q) (snd q).

(** The entries of a dataset read with the type of one kind of value. *)
Definition as_values (t : tag) (x : mdata) : option (list (string * value idb)) :=
  match t, x with
  | TInt, DInt l => Some (map (fun e => (fst e, VInt (snd e))) l)
  | TDbl, DDbl l => Some (map (fun e => (fst e, VDbl (snd e))) l)
  | TStr, DStr l => Some (map (fun e => (fst e, VStr (snd e))) l)
  | TVecInt, DVecInt l => Some (map (fun e => (fst e, VVecInt (snd e))) l)
  | TVecDbl, DVecDbl l => Some (map (fun e => (fst e, VVecDbl (snd e))) l)
  | _, _ => None
  end.
Definition get_value (v : value idb) : res (value idb) :=
  match v with VStr s => do s <- text_of s; Ok (VStr s) | _ => Ok v end.
Definition read_entries (l : list (string * value idb)) (d : db idb) : res (db idb) :=
  foldM (fun d e => do k <- text_of (fst e); do v <- get_value (snd e); Ok (put d k v)) l d.

(** IO_HDF5.t.hh 66-113: an empty dataset is not closed. *)
Definition read_data (t : tag) (kids : list (string * node)) (name : string) (s : db idb * nat) : res (db idb * nat) :=
  match mfind name kids with
  | Some (Map x) =>
      match as_values t x with
      | Some [] => Ok (fst s, S (snd s))
      | Some l => do d <- read_entries l (fst s); Ok (d, snd s)
      | None => UB
      end
  | _ => UB
  end.

Section Read.
  (** The order in which H5Literate visits the links (H5_ITER_NATIVE). *)
  Variable ord : list string -> list string.

  (** IO_HDF5.cc 229-255 and 429-459: the group db_data is not closed. *)
  Fixpoint read_node (n : node) : res (idb * nat) :=
    match n with
    | Grp _ kids =>
      do s <- read_data TInt kids "int_data" (empty_db idb, 0);
      do s <- read_data TDbl kids "dbl_data" s;
      do s <- read_data TStr kids "str_data" s;
      do s <- read_data TVecInt kids "vec_int_data" s;
      do s <- read_data TVecDbl kids "vec_dbl_data" s;
      do q <- (fix find (l : list (string * node)) : res (option (list (string * idb) * nat)) :=
        match l with
        | [] => Ok None
        | (k, x) :: t =>
            if ("db_data" =? k)%string then
              match x with
              | Grp _ sub =>
                  do r <- (fix go (l : list (string * node)) : res (list (string * idb) * nat) :=
                    match l with
                    | [] => Ok ([], 0)
                    | (k, x) :: t => do a <- read_node x; do b <- go t; Ok ((k, fst a) :: fst b, snd a + snd b)
                    end) sub;
                  Ok (Some r)
              | _ => UB
              end
            else find t
        end) kids;
      match q with
      | None => Ok (IDB (fst s), snd s)
      | Some (l, h) =>
          do d <- foldM (fun d k => match mfind k l with Some e => Ok (put d k (VDb e)) | None => UB end)
                    (ord (map fst l)) (fst s);
          Ok (IDB d, snd s + S h)
      end
    | _ => Err
    end.
  (** IO_HDF5.cc 216-226. *)
  Definition read_input (s : session) : res (idb * session) :=
    do s <- for_reading s;
    do kids <- root_kids s;
    match mfind "input" kids with
    | None => Err
    | Some n => do q <- read_node n; Ok (fst q, {| disk := disk s; held := held s + snd q; file := file s |})
    end.
End Read.

(** ** Materials *)
Definition material_name (k : nat) : string := "material" ++ NilZero.string_of_uint (Nat.to_uint k).
(** Material.i.hh 88-165: the values of all groups. *)
Definition vec_of (m : mtl) (f : nat -> nat -> R) (k : nat) : list R := map (fun g => f g k) (seq 0 (ng m)).

(** IO_HDF5.cc 118-160; diff_coef is written from sigma_a as in the source. *)
Definition material_node (m : mtl) (k : nat) : node :=
  Grp [] [("sigma_t", Vec (vec_of m (st m) k)); ("sigma_a", Vec (vec_of m (sa m) k));
          ("sigma_f", Vec (vec_of m (sf m) k)); ("nu", Vec (vec_of m (nu m) k));
          ("chi", Vec (vec_of m (chi m) k)); ("diff_coef", Vec (vec_of m (sa m) k));
          ("sigma_s", Vec (flat_map (fun g => map (fun gp => ss m g gp k) (seq 0 (ng m))) (seq 0 (ng m))))].
(** IO_HDF5.cc 83-168: every object is closed. *)
Definition write_material (s : session) (m : mtl) : res session :=
  do s <- for_writing s;
  add_root s "material"
    (Grp [("number_groups", Z.of_nat (ng m)); ("number_materials", Z.of_nat (nm m))]
         (map (fun k => (material_name k, material_node m k)) (seq 0 (nm m)))) 0.

(** IO_HDF5.t.hh 283-308: None when there is no such dataset; a dataset of
    another length overruns the buffer or leaves it unset. *)
Definition read_vec (kids : list (string * node)) (name : string) (n : nat) : res (option (list R)) :=
  match mfind name kids with
  | None => Ok None
  | Some (Vec l) => if List.length l =? n then Ok (Some l) else UB
  | Some _ => UB
  end.
(** Material.cc 134-206: the vectorised setters. *)
Definition set_vec (x : mtl) (f : field) (k : nat) (v : list R) : res mtl :=
  foldM (fun x g => do a <- rd v g; Ok (set_field x f k g a)) (seq 0 (ng x)) x.
Definition set_if (x : mtl) (f : field) (k : nat) (v : option (list R)) : res mtl :=
  match v with None => Ok x | Some v => set_vec x f k v end.
Definition attribute (atts : list (string * Z)) (name : string) : res Z :=
  match mfind name atts with Some z => Ok z | None => UB end.

(** IO_HDF5.cc 296-336. *)
Definition read_one (kids : list (string * node)) (x : mtl) (k : nat) : res mtl :=
  match mfind (material_name k) kids with
  | None => Err
  | Some (Grp _ sub) =>
      do v <- read_vec sub "sigma_t" (ng x);
      match v with
      | None => Err
      | Some v =>
          do x <- set_vec x FT k v;
          do v <- read_vec sub "sigma_a" (ng x); do x <- set_if x FA k v;
          do v <- read_vec sub "sigma_f" (ng x); do x <- set_if x FSF k v;
          do v <- read_vec sub "nu" (ng x); do x <- set_if x FNU k v;
          do v <- read_vec sub "chi" (ng x); do x <- set_if x FCHI k v;
          do v <- read_vec sub "diff_coef" (ng x); do x <- set_if x FDC k v;
          do v <- read_vec sub "sigma_s" (ng x * ng x);
          match v with
          | None => UB
          | Some v =>
              foldM (fun x g => foldM (fun x gp =>
                do a <- rd v (gp + g * ng x); Ok (set_scatter x k g gp a)) (seq 0 (ng x)) x) (seq 0 (ng x)) x
          end
      end
  | Some _ => UB
  end.
(** IO_HDF5.cc 258-345. *)
Definition read_material (s : session) : res (mtl * session) :=
  do s <- for_reading s;
  do kids <- root_kids s;
  match mfind "material" kids with
  | None => Err
  | Some (Grp atts sub) =>
      do n <- attribute atts "number_groups";
      do m <- attribute atts "number_materials";
      do x <- foldM (read_one sub) (seq 0 (Z.to_nat m)) (material_new (Z.to_nat m) (Z.to_nat n));
      Ok (finalize x, s)
  | Some _ => UB
  end.

(** ** Meshes with their maps *)
Record mapped := { body : mesh; maps : smap (list Z) }.

(** IO_HDF5.cc 171-202: the group is not closed. *)
Definition write_mesh (s : session) (m : mapped) : res session :=
  do s <- for_writing s;
  let b := body m in
  add_root s "mesh"
    (Grp [("dimension", Z.of_nat (dim b)); ("number_cells_x", Z.of_nat (ncx b));
          ("number_cells_y", Z.of_nat (ncy b)); ("number_cells_z", Z.of_nat (ncz b))]
         [("dx", Vec (mdx b)); ("dy", Vec (mdy b)); ("dz", Vec (mdz b));
          ("mesh_map", Map (DVecInt (entries (maps m))))]) 1.

(** Mesh.cc 42-61 and 152-230: the constructor from fine edges. *)
Definition mesh_fine (d : nat) (ex ey ez : list R) (mt : list Z) : res mesh :=
  do tx <- total ex; do ty <- total ey; do tz <- total ez;
  let one e := repeat 1 (List.length e - 1) in
  do wx <- widths (one ex) ex; do wy <- widths (one ey) ey; do wz <- widths (one ez) ez;
  Ok {| dim := d; xfm := one ex; yfm := one ey; zfm := one ez; xcme := ex; ycme := ey; zcme := ez;
        mdx := wx; mdy := wy; mdz := wz;
        twx := tx; twy := (if d <? 2 then 1%R else ty); twz := (if d <? 3 then 1%R else tz); mat := mt |}.
(** Mesh1D.cc 36-50, Mesh2D.cc 33-44, Mesh3D.cc 31-40. *)
Definition mesh1D_fine (ex : list R) (mt : list Z) : res mesh :=
  do m <- mesh_fine 1 ex [0%R; 0%R] [0%R; 0%R] mt;
  Ok {| dim := 1; xfm := xfm m; yfm := yfm m; zfm := zfm m; xcme := xcme m;
        ycme := [0%R; 1%R]; zcme := [0%R; 1%R]; mdx := mdx m; mdy := upd (mdy m) 0 1%R; mdz := upd (mdz m) 0 1%R;
        twx := twx m; twy := twy m; twz := twz m; mat := mat m |}.
Definition mesh2D_fine (ex ey : list R) (mt : list Z) : res mesh :=
  do m <- mesh_fine 2 ex ey [0%R; 0%R] mt;
  Ok {| dim := 2; xfm := xfm m; yfm := yfm m; zfm := zfm m; xcme := xcme m;
        ycme := ycme m; zcme := [0%R; 1%R]; mdx := mdx m; mdy := mdy m; mdz := upd (mdz m) 0 1%R;
        twx := twx m; twy := twy m; twz := twz m; mat := mat m |}.
Definition mesh3D_fine := mesh_fine 3.

(** IO_HDF5.t.hh 207-252 for vec_int. *)
Definition read_map (kids : list (string * node)) (name : string) : res (smap (list Z)) :=
  match mfind name kids with
  | None => Err
  | Some (Map (DVecInt [])) => Err
  | Some (Map (DVecInt l)) => foldM (fun m e => do k <- text_of (fst e); Ok (massign k (snd e) m)) l []
  | Some _ => UB
  end.
Definition needed (v : option (list R)) : res (list R) := match v with Some v => Ok v | None => Err end.
(** IO_HDF5.cc 348-424; the edges are the sums of the widths from 0. *)
Definition read_mesh (s : session) : res (mapped * session) :=
  do s <- for_reading s;
  do kids <- root_kids s;
  match mfind "mesh" kids with
  | None => Err
  | Some (Grp atts sub) =>
      do d <- attribute atts "dimension";
      do nx <- attribute atts "number_cells_x";
      do ny <- attribute atts "number_cells_y";
      do nz <- attribute atts "number_cells_z";
      if ((0 <? nx) && (0 <? ny) && (0 <? nz) && ((d =? 1) || (d =? 2) || (d =? 3)))%Z then
        do v <- read_vec sub "dx" (Z.to_nat nx); do dx <- needed v;
        do v <- read_vec sub "dy" (Z.to_nat ny); do dy <- needed v;
        do v <- read_vec sub "dz" (Z.to_nat nz); do dz <- needed v;
        do map <- read_map sub "mesh_map";
        let mt := match mfind "MATERIAL" map with Some l => l | None => [] end in
        let ex := edges_from 0 dx in let ey := edges_from 0 dy in let ez := edges_from 0 dz in
        do m <- (if (d =? 1)%Z then mesh1D_fine ex mt else if (d =? 2)%Z then mesh2D_fine ex ey mt
                 else mesh3D_fine ex ey ez mt);
        Ok ({| body := m;
               maps := fold_left (fun a e => if (fst e =? "MATERIAL")%string then a else massign (fst e) (snd e) a)
                         map [("MATERIAL", mt)] |}, s)
      else Err
  | Some _ => UB
  end.

(** ** Saving several things in one file *)
Inductive item := IInput (d : idb) | IMaterial (m : mtl) | IMesh (m : mapped).
Definition write_item (s : session) (i : item) : res session :=
  match i with IInput d => write_input s d | IMaterial m => write_material s m | IMesh m => write_mesh s m end.
