(** * Specification vocabulary for the utilities *)
From Coq Require Import String.
From Verif Require Import Base BaseR Util_Model.
Open Scope R_scope.

(** v is the largest element of a (nonempty) list. *)
Definition is_max_of (v : R) (l : list R) : Prop := In v l /\ forall a, In a l -> a <= v.
Definition is_min_of (v : R) (l : list R) : Prop := In v l /\ forall a, In a l -> v <= a.

Definition is_sortZ (srt : list Z -> list Z) : Prop :=
  forall l, Permutation l (srt l) /\ StronglySorted Z.le (srt l).

Definition put_hist {S} := fold_left (fun (d : db S) p => put d (fst p) (snd p)).

Definition tag_eqb (a b : tag) : bool :=
  match a, b with
  | TInt, TInt | TDbl, TDbl | TStr, TStr | TVecInt, TVecInt | TVecDbl, TVecDbl | TDb, TDb => true
  | _, _ => false
  end.

(** The last value put under (key, type) in a history. *)
Fixpoint last_put {S} (h : list (string * value S)) (t : tag) (k : string) : option (value S) :=
  match h with
  | [] => None
  | (k', v) :: r =>
      match last_put r t k with
      | Some x => Some x
      | None => if (String.eqb k k' && tag_eqb t (tag_of v))%bool then Some v else None
      end
  end.

(** The first function registered under a key. *)
Fixpoint first_reg {C} (h : list (string * C)) (k : string) : option C :=
  match h with
  | [] => None
  | (k', c) :: r => if String.eqb k k' then Some c else first_reg r k
  end.
Fixpoint reg_hist {C} (m : smap C) (h : list (string * C)) : list bool * smap C :=
  match h with
  | [] => ([], m)
  | (k, c) :: r => let '(b, m1) := register m k c in
                   let '(bs, m2) := reg_hist m1 r in (b :: bs, m2)
  end.
