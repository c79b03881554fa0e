(** * Specification vocabulary for the managers *)
From Coq Require Import String.
From Verif Require Import Base BaseR Util_Model Manager_Model.
Open Scope string_scope.
Open Scope nat_scope.
Set Implicit Arguments.

(** The text an input gives for a key, or the default. *)
Definition says {Sub} (d : db Sub) (k dflt s : string) : Prop :=
  (check d k = false /\ s = dflt) \/ (check d k = true /\ mfind k (m_str d) = Some s).

(** The method that the input [d0] at setup and [d] at set_solver name. *)
Definition named {Sub} (d0 d : db Sub) (dim : nat) (k : kind) : Prop :=
  match k with
  | Diffusion => says d0 "equation" "dd" "diffusion"
  | Transport o i w =>
      ~ says d0 "equation" "dd" "diffusion" /\
      says d "outer_solver" "GS" (match o with OuterGS => "GS" | OuterCMFD => "CMFD" | OuterGMRES => "GMRES" end) /\
      says d "inner_solver" "SI" (match i with InnerSI => "SI" | InnerGMRES => "GMRES" end) /\
      says d "equation" "dd" (match w with SweepDD => "dd" | SweepSD => "sd" | SweepSC => "sc" end) /\
      1 <= dim <= 3 /\ (dim = 3 -> w = SweepDD)
  end.

Section History.
  Variables Sub Q : Type.
  Notation event := (call Sub Q * bool)%type.
  Definition is_setup (e : event) : bool := match fst e with Setup _ => true | _ => false end.
  Definition is_build (e : event) : bool :=
    match e with (SetSolver _, true) => true | _ => false end.
  Definition never (f : event -> bool) (h : list event) : Prop := forall e, In e h -> f e = false.
  (** The sources given in a history, in order. *)
  Definition given (h : list event) : list Q :=
    flat_map (fun e => match fst e with SetSource (Some q) => [q] | _ => [] end) h.
  Definition setups (h : list event) : nat := List.length (filter is_setup h).
End History.
