(** * Model of the text input parser
    Source: /repo/src/drivers/StupidParser.hh 200-433.
    A file is its list of lines.  Simplifications: the conversions of a token
    to a number (operator>> of a string stream) are arbitrary functions of the
    token which may be undefined (a token without a number leaves the value
    unset); [to_vint] is the conversion through double that read_vector uses
    for integers. *)
From Coq Require Import String Ascii.
From Verif Require Import Base BaseR Util_Model Material_Model Manager_Model Driver_Model.
Open Scope string_scope.
Open Scope nat_scope.
Set Implicit Arguments.

Definition space : ascii := " "%char.

(** StupidParser.hh 393-396: the first double space becomes a single one. *)
Fixpoint squeeze_once (s : string) : option string :=
  match s with
  | EmptyString => None
  | String c t =>
      match t with
      | EmptyString => None
      | String c2 r =>
          if (Ascii.eqb c space && Ascii.eqb c2 space)%bool then Some (String space r)
          else option_map (String c) (squeeze_once t)
      end
  end.

(** StupidParser.hh 391-403: recursion until there is none. *)
Fixpoint remove_white (fuel : nat) (s : string) : string :=
  match fuel with
  | 0 => s
  | S fuel => match squeeze_once s with None => s | Some s => remove_white fuel s end
  end.
Definition remove_white_space (s : string) : string := remove_white (String.length s) s.

(** std::getline(iss, w, ' ') on what is left of a stream: the characters up
    to the next space, which is dropped; fails at the end. *)
Fixpoint upto_space (s : string) : string * string :=
  match s with
  | EmptyString => ("", "")
  | String c r => if Ascii.eqb c space then ("", r)
                  else let p := upto_space r in (String c (fst p), snd p)
  end.
Definition getline (s : string) : option (string * string) :=
  match s with EmptyString => None | _ => Some (upto_space s) end.

(** operator>> into a string: skip white space, read to the next. *)
Definition is_white (c : ascii) : bool :=
  let n := nat_of_ascii c in (n =? 32) || ((9 <=? n) && (n <=? 13)).
Fixpoint skip_white (s : string) : string :=
  match s with
  | EmptyString => ""
  | String c r => if is_white c then skip_white r else s
  end.
Fixpoint take_word (s : string) : string :=
  match s with
  | EmptyString => ""
  | String c r => if is_white c then "" else String c (take_word r)
  end.
Definition word (s : string) : string := take_word (skip_white s).

(** The token of read_scalar (StupidParser.hh 424-433): empty when the line
    has ended. *)
Definition token (s : string) : string * string :=
  match getline s with None => ("", s) | Some p => p end.

(** The tokens of read_vector (StupidParser.hh 407-420). *)
Fixpoint tokens (fuel : nat) (s : string) : list string :=
  match fuel with
  | 0 => []
  | S fuel => match getline s with None => [] | Some p => fst p :: tokens fuel (snd p) end
  end.
Definition rest_tokens (s : string) : list string := tokens (String.length s) s.

(** peek() == '#'. *)
Definition is_comment (s : string) : bool :=
  match s with String c _ => Ascii.eqb c "#"%char | EmptyString => false end.

Section Parser.
  Variable Sub : Type.
  Variable to_int to_vint : string -> res Z.
  Variable to_dbl : string -> res R.

  (** StupidParser.hh 217-261: one line of the input. *)
  Definition parse_line (d : db Sub) (line : string) : res (db Sub) :=
    let s := remove_white_space line in
    if is_comment s then Ok d
    else match getline s with
         | None => Ok d
         | Some (w, r) =>
             let k := word (fst (token r)) in
             let r := snd (token r) in
             if String.eqb w "int" then do z <- to_int (fst (token r)); Ok (put d k (VInt z))
             else if String.eqb w "dbl" then do x <- to_dbl (fst (token r)); Ok (put d k (VDbl x))
             else if String.eqb w "str" then Ok (put d k (VStr (word (fst (token r)))))
             else if String.eqb w "vec_int" then
               do l <- mapM to_vint (rest_tokens r); Ok (put d k (VVecInt l))
             else if String.eqb w "vec_dbl" then
               do l <- mapM to_dbl (rest_tokens r); Ok (put d k (VVecDbl l))
             else Ok d
         end.

  (** StupidParser.hh 202-265. *)
  Definition parse_input (lines : list string) : res (db Sub) :=
    foldM parse_line lines (empty_db Sub).

  (** StupidParser.hh 293-312: the number of materials and the downscatter
      flag. *)
  Definition count_line (st : Z * bool) (line : string) : res (Z * bool) :=
    let s := remove_white_space line in
    if is_comment s then Ok st
    else match getline s with
         | None => Ok st
         | Some (w, r) =>
             if String.eqb w "material" then
               let k := word (fst (token r)) in
               let r := snd (token r) in
               if String.eqb k "number_materials" then do z <- to_int (fst (token r)); Ok (z, snd st)
               else if String.eqb k "downscatter" then
                 do z <- to_int (fst (token r)); Ok (fst st, negb (z =? 0)%Z)
               else Ok st
             else Ok st
         end.

  (** The fields a line can name (StupidParser.hh 332-374). *)
  Definition field_of (k : string) : option field :=
    if String.eqb k "sigma_t" then Some FT else if String.eqb k "sigma_a" then Some FA
    else if String.eqb k "sigma_f" then Some FSF else if String.eqb k "nu" then Some FNU
    else if String.eqb k "chi" then Some FCHI else if String.eqb k "diff_coef" then Some FDC else None.

  (** The vector forms of the setters (Material.cc 122-204): an index out of
      range is undefined. *)
  Definition set_row (x : mtl) (f : field) (mat : Z) (v : list R) : res mtl :=
    if ((0 <=? mat) && (mat <? Z.of_nat (nm x)))%Z then
      Ok (fold_left (fun x g => set_field x f (Z.to_nat mat) g (nth g v 0%R)) (seq 0 (ng x)) x)
    else UB.
  Definition set_scatter_row (x : mtl) (mat g : Z) (v : list R) : res mtl :=
    if ((0 <=? mat) && (mat <? Z.of_nat (nm x)) && (0 <=? g) && (g <? Z.of_nat (ng x)))%Z then
      Ok (fold_left (fun x gp => set_scatter x (Z.to_nat mat) (Z.to_nat g) gp (nth gp v 0%R)) (seq 0 (ng x)) x)
    else UB.

  (** StupidParser.hh 323-384: one line of material data. *)
  Definition material_line (groups : Z) (x : mtl) (line : string) : res mtl :=
    let s := remove_white_space line in
    if is_comment s then Ok x
    else match getline s with
         | None => Ok x
         | Some (w, r) =>
             if String.eqb w "material" then
               let k := word (fst (token r)) in
               let r := snd (token r) in
               match field_of k with
               | Some f =>
                   do mat <- to_int (fst (token r));
                   do v <- mapM to_dbl (rest_tokens (snd (token r)));
                   do _ <- insist (zlen v =? groups)%Z;
                   set_row x f mat v
               | None =>
                   if String.eqb k "sigma_s" then
                     do mat <- to_int (fst (token r));
                     let r := snd (token r) in
                     do g <- to_int (fst (token r));
                     do v <- mapM to_dbl (rest_tokens (snd (token r)));
                     do _ <- insist (zlen v =? groups)%Z;
                     set_scatter_row x mat g v
                   else Ok x
               end
             else Ok x
         end.

  (** StupidParser.hh 268-388. *)
  Definition parse_material (d : db Sub) (lines : list string) : res mtl :=
    do groups <- get_int d "number_groups";
    do c <- foldM count_line lines (0%Z, false);
    let x := set_downscatter (material_new (Z.to_nat (fst c)) (Z.to_nat groups)) (snd c) false in
    do x <- foldM (material_line groups) lines x;
    Ok (finalize x).
End Parser.
