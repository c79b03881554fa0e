(** * Model of detran_utilities: MathUtilities, SoftEquivalence, InputDB, Factory, Random
    Source: /repo/src/utilities/.
    Simplifications: [double] is [R]; string norm flags are an inductive type
    with one constructor for an unknown flag. *)
From Coq Require Import String.
From Verif Require Import Base BaseR.
Set Implicit Arguments. Unset Strict Implicit.
Open Scope R_scope.

(** ** MathUtilities.hh *)

Inductive nflag := L1 | L2 | Linf | BadFlag.

(** std::max(a, b) = (a < b) ? b : a *)
Definition rmax (a b : R) : R := if Rlt_dec a b then b else a.

(** MathUtilities.hh 27-52: norm.  Linf reads x[0] of a vector: UB when empty. *)
Definition norm (x : list R) (f : nflag) : res R :=
  match f with
  | L2 => Ok (sqrt (fold_left (fun v a => v + a * a) x 0))
  | L1 => Ok (fold_left (fun v a => v + Rabs a) x 0)
  | Linf => match x with
            | [] => UB
            | a :: r => Ok (fold_left (fun v b => rmax (Rabs b) v) r a)
            end
  | BadFlag => Err
  end.

(** MathUtilities.hh 69-100: norm_residual (equal lengths by Require). *)
Definition norm_residual (x y : list R) (f : nflag) : res R :=
  let d := combine x y in
  match f with
  | L2 => Ok (sqrt (fold_left (fun v p => v + (fst p - snd p) ^ 2) d 0))
  | L1 => Ok (fold_left (fun v p => v + Rabs (fst p - snd p)) d 0)
  | Linf => match d with
            | [] => UB
            | p :: r => Ok (fold_left (fun v q => rmax (Rabs (fst q - snd q)) v) r (Rabs (fst p - snd p)))
            end
  | BadFlag => Err
  end.

(** MathUtilities.hh 103-134: norm_relative_residual; the first element of the
    Linf branch (line 125) is not divided. *)
Definition norm_relative_residual (x y : list R) (f : nflag) : res R :=
  let d := combine x y in
  match f with
  | L2 => Ok (sqrt (fold_left (fun v p => v + ((fst p - snd p) / snd p) ^ 2) d 0))
  | L1 => Ok (fold_left (fun v p => v + Rabs ((fst p - snd p) / snd p)) d 0)
  | Linf => match d with
            | [] => UB
            | p :: r => Ok (fold_left (fun v q => rmax (Rabs ((fst q - snd q) / snd q)) v) r (Rabs (fst p - snd p)))
            end
  | BadFlag => Err
  end.

(** MathUtilities.hh 137-144: vec_min; [hi] is numeric_limits<T>::max(). *)
Definition vec_min (hi : R) (v : list R) : R :=
  fold_left (fun m a => if Rlt_dec a m then a else m) v hi.

(** MathUtilities.hh 147-154: vec_max; [lo] is numeric_limits<T>::min(), which
    for double is the smallest POSITIVE normalised number. *)
Definition vec_max (lo : R) (v : list R) : R :=
  fold_left (fun m a => if Rlt_dec m a then a else m) v lo.

(** MathUtilities.hh 157-172: vec_sum, vec_plus_a; 55-66: vec_scale, vec_set. *)
Definition vec_sum (v : list R) : R := fold_left Rplus v 0.
Definition vec_plus_a (v : list R) (a : R) : list R := map (fun x => x + a) v.
Definition vec_scale (v : list R) (s : R) : list R := map (fun x => x * s) v.
Definition vec_set (v : list R) (a : R) : list R := map (fun _ => a) v.

(** std::unique followed by resize, MathUtilities.hh 181-182: of each run of
    equal elements the first is kept. *)
Fixpoint uniq (l : list Z) : list Z :=
  match l with
  | [] => []
  | a :: r => match r with
              | [] => [a]
              | b :: _ => if (a =? b)%Z then uniq r else a :: uniq r
              end
  end.

(** MathUtilities.hh 175-184: vec_unique (element type modelled as Z);
    [srt] is std::sort. *)
Definition vec_unique (srt : list Z -> list Z) (v : list Z) : list Z := uniq (srt v).

(** v[i] = v[i-1] + dx for i = 1 .. n-1 *)
Fixpoint progression (n : nat) (a dx : R) : list R :=
  match n with
  | O => []
  | S m => a :: progression m (a + dx) dx
  end.

(** MathUtilities.hh 187-199: linspace. *)
Definition linspace (a b : R) (n : nat) : list R :=
  progression n a (if (n <=? 1)%nat then b - a else (b - a) / INR (n - 1)).

(** MathUtilities.hh 202-214: linspace_center. *)
Definition linspace_center (a b : R) (n : nat) : list R :=
  let dx := if (n <=? 1)%nat then b - a else (b - a) / INR n in
  progression n (a + 0.5 * dx) dx.

(** MathUtilities.hh 235-238: the filling loop of range. *)
Fixpoint count_from (n : nat) (i del : Z) : list Z :=
  match n with
  | O => []
  | S m => i :: count_from m (i + del) del
  end.

(** MathUtilities.hh 226-240: range; the conversion to T is not modelled. *)
Definition range (a b : Z) (inclusive : bool) : list Z :=
  count_from (Z.to_nat (Z.abs (a - b)) + if inclusive then 1 else 0)%nat a
             (if (a <? b)%Z then 1%Z else (-1)%Z).

(** ** SoftEquivalence.hh *)

(** SoftEquivalence.hh 41-59; 1.0e-14 is a constant. *)
Definition tiny14 : R := / 10 ^ 14.
Definition soft_equiv (value reference precision : R) : bool :=
  let passed := if Rlt_dec (Rabs (value - reference)) (precision * Rabs reference) then true else false in
  if passed then true
  else if Rlt_dec (Rabs reference) tiny14
       then (if Rlt_dec (Rabs value) precision then true else false)
       else false.

(** SoftEquivalence.hh 116-121. *)
Fixpoint soft_loop (v r : list R) (precision : R) : bool :=
  match v, r with
  | a :: v', b :: r' => if soft_equiv a b precision then soft_loop v' r' precision else false
  | _, _ => true
  end.
(** SoftEquivalence.hh 94-125. *)
Definition soft_equiv_field (v r : list R) (precision : R) : bool :=
  if negb (Nat.eqb (List.length v) (List.length r)) then false else soft_loop v r precision.

(** ** InputDB: six std::map's keyed by strings. *)

(** std::map as an association list: find, operator[]=, insert. *)
Section Maps.
  Variable V : Type.
  Definition smap := list (string * V).
  Fixpoint mfind (k : string) (m : smap) : option V :=
    match m with
    | [] => None
    | (k', v) :: r => if String.eqb k k' then Some v else mfind k r
    end.
  (** m[k] = v *)
  Fixpoint massign (k : string) (v : V) (m : smap) : smap :=
    match m with
    | [] => [(k, v)]
    | (k', v') :: r => if String.eqb k k' then (k', v) :: r else (k', v') :: massign k v r
    end.
  (** m.insert(pair(k,v)): no effect when the key exists. *)
  Definition minsert (k : string) (v : V) (m : smap) : bool * smap :=
    match mfind k m with
    | Some _ => (false, m)
    | None => (true, m ++ [(k, v)])
    end.
End Maps.

Section InputDB.
  (** [Sub] stands for SP_input (a nested database). *)
  Variable Sub : Type.
  Inductive tag := TInt | TDbl | TStr | TVecInt | TVecDbl | TDb.
  Inductive value :=
  | VInt (z : Z) | VDbl (r : R) | VStr (s : string)
  | VVecInt (l : list Z) | VVecDbl (l : list R) | VDb (s : Sub).
  Definition tag_of (v : value) : tag :=
    match v with VInt _ => TInt | VDbl _ => TDbl | VStr _ => TStr
               | VVecInt _ => TVecInt | VVecDbl _ => TVecDbl | VDb _ => TDb end.

  Record db := {
    m_int : smap Z; m_dbl : smap R; m_vec_int : smap (list Z);
    m_vec_dbl : smap (list R); m_str : smap string; m_db : smap Sub }.
  Definition empty_db : db := Build_db [] [] [] [] [] [].

  (** InputDB.i.hh 127-161: put, one overload per type. *)
  Definition put (d : db) (k : string) (v : value) : db :=
    match v with
    | VInt z => Build_db (massign k z (m_int d)) (m_dbl d) (m_vec_int d) (m_vec_dbl d) (m_str d) (m_db d)
    | VDbl r => Build_db (m_int d) (massign k r (m_dbl d)) (m_vec_int d) (m_vec_dbl d) (m_str d) (m_db d)
    | VVecInt l => Build_db (m_int d) (m_dbl d) (massign k l (m_vec_int d)) (m_vec_dbl d) (m_str d) (m_db d)
    | VVecDbl l => Build_db (m_int d) (m_dbl d) (m_vec_int d) (massign k l (m_vec_dbl d)) (m_str d) (m_db d)
    | VStr s => Build_db (m_int d) (m_dbl d) (m_vec_int d) (m_vec_dbl d) (massign k s (m_str d)) (m_db d)
    | VDb s => Build_db (m_int d) (m_dbl d) (m_vec_int d) (m_vec_dbl d) (m_str d) (massign k s (m_db d))
    end.

  Definition found {V} (f : V -> value) (o : option V) : res value :=
    match o with Some v => Ok (f v) | None => UB end.

  (** InputDB.i.hh 86-121: get<T>: map.find(key)->second; dereferencing end()
      is UB. *)
  Definition getv (d : db) (t : tag) (k : string) : res value :=
    match t with
    | TInt => found VInt (mfind k (m_int d))
    | TDbl => found VDbl (mfind k (m_dbl d))
    | TVecInt => found VVecInt (mfind k (m_vec_int d))
    | TVecDbl => found VVecDbl (mfind k (m_vec_dbl d))
    | TStr => found VStr (mfind k (m_str d))
    | TDb => found VDb (mfind k (m_db d))
    end.

  Definition present {V} (k : string) (m : smap V) : bool :=
    match m with [] => false | _ => match mfind k m with Some _ => true | None => false end end.

  (** InputDB.i.hh 20-81: check. *)
  Definition check (d : db) (k : string) : bool :=
    if present k (m_int d) then true
    else if present k (m_dbl d) then true
    else if present k (m_vec_int d) then true
    else if present k (m_vec_dbl d) then true
    else if present k (m_str d) then true
    else present k (m_db d).

  (** InputDB.cc 94-112: size of one type. *)
  Definition dbsize (d : db) (t : tag) : nat :=
    match t with
    | TInt => List.length (m_int d) | TDbl => List.length (m_dbl d) | TStr => List.length (m_str d)
    | TVecInt => List.length (m_vec_int d) | TVecDbl => List.length (m_vec_dbl d) | TDb => List.length (m_db d)
    end.
End InputDB.
Arguments VInt {Sub}. Arguments VDbl {Sub}. Arguments VStr {Sub}.
Arguments VVecInt {Sub}. Arguments VVecDbl {Sub}.

(** ** Factory<B> *)
Section Factory.
  Variable Create : Type.          (* CreateFunction *)
  (** Factory.i.hh 70-74: Register. *)
  Definition register (m : smap Create) (k : string) (c : Create) : bool * smap Create := minsert k c m.
  (** Factory.i.hh 42-52: GetCreateFunction, throws for an unknown key. *)
  Definition get_create (m : smap Create) (k : string) : res Create :=
    match mfind k m with Some c => Ok c | None => Err end.
  (** Factory.i.hh 34-39: IsRegistered. *)
  Definition is_registered (m : smap Create) (k : string) : bool :=
    match mfind k m with Some _ => true | None => false end.
End Factory.

(** ** Random *)

(** 64-bit signed [long]: the representable range and the wrapped value. *)
Definition in_long (z : Z) : bool := ((- 2 ^ 63 <=? z) && (z <? 2 ^ 63))%Z.
Definition wrap64 (z : Z) : Z := ((z + 2 ^ 63) mod 2 ^ 64 - 2 ^ 63)%Z.

(** Random.hh 68-79: constructor; the arguments g and c are ignored (lines
    73-74).  2^m - 1 is computed in double: exact for m <= 53 (assumed). *)
Record random := { rS : Z; rg : Z; rc : Z; rm : Z }.
Definition random_new (S g c m : Z) : random :=
  {| rS := S; rg := 19073486328125; rc := 0; rm := m |}.

(** Random.hh 86: d_S = (((d_g * d_S) & mask) + d_c) & mask, in wrapping
    (two's complement) arithmetic. *)
Definition mask (m : Z) : Z := (2 ^ m - 1)%Z.
Definition next_wrapping (r : random) : random :=
  {| rS := Z.land (wrap64 (Z.land (wrap64 (rg r * rS r)) (mask (rm r)) + rc r)) (mask (rm r));
     rg := rg r; rc := rc r; rm := rm r |}.
(** The same with ISO C++ semantics: signed overflow is UB. *)
Definition next_iso (r : random) : res random :=
  if in_long (rg r * rS r) then
    if in_long (Z.land (rg r * rS r) (mask (rm r)) + rc r) then Ok (next_wrapping r) else UB
  else UB.
(** Random.hh 87: the returned number. *)
Definition out (r : random) : R := IZR (rS r) * (/ IZR (2 ^ rm r)).
(** The n-th number (n = 1, 2, ...). *)
Fixpoint stream (n : nat) (r : random) : random :=
  match n with O => r | S k => next_wrapping (stream k r) end.
