(** * Boundary_Props *)
From Verif Require Import Base BaseR Angle_Model Angle_Spec Angle_Proofs Boundary_Model Boundary_Spec Boundary_Proofs.
Open Scope nat_scope.

Definition case_q : quad :=
  match quad_new 2 8 with Ok q => q | _ => {| q_dim := 0; q_nang := 0; q_noct := 0; q_nao := 0; q_wt := []; q_mu := []; q_eta := [];
    q_xi := []; q_sign := []; q_inc := []; q_out := []; q_adj := false |} end.
Example case_sn : sn_quad case_q.
Proof. repeat split; cbn; lia. Qed.
(** West reflects, the other sides are vacuum; the flux of angle n on side s is s + n. *)
Definition case_b : bsn :=
  {| b_q := case_q; b_ng := 2; b_bc := fun s => if s =? 0 then Reflect else Vacuum;
     b_flux := fun s g n => [[INR (10 * s + n); INR g; 7%R]] |}.

(** C35: octants by the signs of their directions; octant tables agree with them by C24. *)
Theorem C35_reflective_update :
  forall b g,
  sn_quad (b_q b) -> g < b_ng b ->
  (forall s, s < 2 * q_dim (b_q b) -> b_bc b s <> Periodic) ->
  exists b', bsn_update b g = Ok b' /\ same_setup b b' /\
  (forall s o o' a, valid b s o a g -> b_bc b s = Reflect -> enters (q_dim (b_q b)) s o -> mirrored (q_dim (b_q b)) s o o' ->
     flux b' s o a g = flux b s o' a g) /\
  (forall s o a g', valid b s o a g' -> g' <> g \/ b_bc b s <> Reflect \/ leaves (q_dim (b_q b)) s o ->
     flux b' s o a g' = flux b s o a g').
Proof. exact @update_reflects. Qed.
Print Assumptions C35_reflective_update.
Theorem C35_octant_tables :
  forall dim s,
  0 < dim < 4 -> s < 2 * dim ->
  length (octants dim s) = 2 ^ dim / 2 /\ NoDup (map fst (octants dim s)) /\ NoDup (map snd (octants dim s)) /\
  (forall i o, In (i, o) (octants dim s) -> enters dim s i /\ leaves dim s o /\ mirrored dim s i o) /\
  (forall i, enters dim s i -> exists o, In (i, o) (octants dim s)) /\
  (forall o, leaves dim s o -> exists i, In (i, o) (octants dim s)) /\
  (forall o, o < 2 ^ dim -> enters dim s o \/ leaves dim s o).
Proof. exact @octants_spec. Qed.
Print Assumptions C35_octant_tables.
Theorem C35_mirror_unique :
  forall dim s o o1 o2,
  0 < dim < 4 -> mirrored dim s o o1 -> mirrored dim s o o2 -> o1 = o2.
Proof. exact @mirrored_unique. Qed.
Print Assumptions C35_mirror_unique.
Theorem C35_mirror_involution :
  forall dim s o o',
  o < 2 ^ dim -> mirrored dim s o o' -> mirrored dim s o' o.
Proof. exact @mirrored_sym. Qed.
Print Assumptions C35_mirror_involution.
Example C35_case : exists b', bsn_update case_b 1 = Ok b' /\
  flux b' 0 0 1 1 = flux case_b 0 1 1 1 /\ flux b' 0 3 0 1 = flux case_b 0 2 0 1 /\ flux b' 1 0 1 1 = flux case_b 1 0 1 1.
Proof. eexists. split; [reflexivity|]. repeat split; reflexivity. Qed.
Example C35_case_mirror : mirrored 2 0 0 1 /\ enters 2 0 0 /\ leaves 2 0 1.
Proof. repeat split; cbn; try lia. intros axis H. assert (axis = 0 \/ axis = 1) as [->| ->] by lia; reflexivity. Qed.

(** C36 *)
Theorem C36_group_update_refuted :
  forall q ng,
  sn_quad q -> 0 < q_nao q -> 0 < ng ->
  exists b b', b_q b = q /\ b_ng b = ng /\ (forall s, b_bc b s = Periodic) /\ bsn_update b 0 = Ok b' /\
  forall s s' o a, valid b s o a 0 -> opposite s s' -> leaves (q_dim q) s o -> flux b' s' o a 0 <> flux b s o a 0.
Proof. exact @periodic_group_wrong. Qed.
Print Assumptions C36_group_update_refuted.
Theorem C36_group_update_keeps_incident :
  forall b g,
  sn_quad (b_q b) -> g < b_ng b ->
  (forall s, s < 2 * q_dim (b_q b) -> b_bc b s = Periodic) ->
  exists b', bsn_update b g = Ok b' /\ same_setup b b' /\
  forall s o a, valid b s o a g -> enters (q_dim (b_q b)) s o -> flux b' s o a g = flux b s o a g.
Proof. exact @periodic_group_keeps_incident. Qed.
Print Assumptions C36_group_update_keeps_incident.
Theorem C36_angle_update_partial :
  forall b g o a,
  sn_quad (b_q b) -> g < b_ng b -> o < q_noct (b_q b) -> a < q_nao (b_q b) ->
  (forall s s', s < 2 * q_dim (b_q b) -> opposite s s' -> b_bc b s = Periodic -> b_bc b s' = Periodic) ->
  exists b', bsn_update_angle b g o a = Ok b' /\ same_setup b b' /\
  (forall s o', s < 2 * q_dim (b_q b) -> b_bc b s = Reflect -> enters (q_dim (b_q b)) s o -> mirrored (q_dim (b_q b)) s o o' ->
     flux b' s o a g = flux b s o' a g) /\
  (forall s s', s < 2 * q_dim (b_q b) -> opposite s s' -> b_bc b s = Periodic -> leaves (q_dim (b_q b)) s o ->
     flux b' s' o a g = flux b s o a g) /\
  (forall s o' a' g', valid b s o' a' g' ->
     g' <> g \/ o' <> o \/ a' <> a \/ leaves (q_dim (b_q b)) s o \/ (b_bc b s <> Reflect /\ b_bc b s <> Periodic) ->
     flux b' s o' a' g' = flux b s o' a' g').
Proof. exact @update_angle. Qed.
Print Assumptions C36_angle_update_partial.
Example C36_case : exists b', bsn_update_angle {| b_q := case_q; b_ng := 1; b_bc := fun s => if s <? 2 then Periodic else Reflect;
     b_flux := fun s g n => [[INR (10 * s + n)]] |} 0 1 1 = Ok b' /\ flux b' 1 1 1 0 = [[INR 3]] /\ flux b' 2 1 1 0 = [[INR (20 + 5)]].
Proof. eexists. split; [reflexivity|]. repeat split; reflexivity. Qed.

(** C37 *)
Theorem C37_psi_round_trip :
  forall b g out onlyref,
  sn_quad (b_q b) -> g < b_ng b ->
  exists w, psi_get b g out onlyref = Ok w /\
  (forall v, length v = length w -> exists b', psi_set b g v out onlyref = Ok (b', []) /\ same_setup b b' /\
     psi_get b' g out onlyref = Ok v /\
     (forall s o a g', valid b s o a g' -> g' <> g \/ ~ selected b out onlyref s o -> flux b' s o a g' = flux b s o a g')) /\
  (exists b', psi_set b g w out onlyref = Ok (b', []) /\ forall s o a g', valid b s o a g' -> flux b' s o a g' = flux b s o a g').
Proof. exact @psi_round_trip. Qed.
Print Assumptions C37_psi_round_trip.
Theorem C37_psi_buffer_size :
  forall b g nx ny nz out onlyref,
  sn_quad (b_q b) -> g < b_ng b -> shaped b nx ny nz ->
  exists w, psi_get b g out onlyref = Ok w /\
  length w = list_sum (map (fun s => if negb onlyref || is_reflective b s then flux_size (q_dim (b_q b)) (q_nang (b_q b)) nx ny nz s / 2 else 0)
                           (seq 0 (2 * q_dim (b_q b)))).
Proof. exact @psi_buffer. Qed.
Print Assumptions C37_psi_buffer_size.
Theorem C37_initial_shape :
  forall q ng nx ny nz c,
  shaped (boundary_new q ng nx ny nz c) nx ny nz.
Proof. exact @new_shaped. Qed.
Print Assumptions C37_initial_shape.
Example C37_case : exists w, psi_get case_b 1 true true = Ok w /\ w = [INR 2; INR 1; 7; INR 3; INR 1; 7; INR 4; INR 1; 7; INR 5; INR 1; 7]%R.
Proof. eexists. split; [reflexivity|]. reflexivity. Qed.

(** C74 *)
Theorem C74_fixed_incident_flux :
  forall b g,
  sn_quad (b_q b) -> g < b_ng b ->
  exists b', bsn_set b g = Ok b' /\ same_setup b b' /\
  (forall s t io o a psi, s < 2 * q_dim (b_q b) -> b_bc b s = Fixed psi -> incident_octant (b_q b) s = Ok t ->
     nth_error t io = Some o -> a < q_nao (b_q b) ->
     enters (q_dim (b_q b)) s o /\ flux b' s o a g = psi g io a) /\
  (forall s o a g', valid b s o a g' -> g' <> g \/ leaves (q_dim (b_q b)) s o \/ (forall psi, b_bc b s <> Fixed psi) ->
     flux b' s o a g' = flux b s o a g').
Proof. exact @fixed_boundary. Qed.
Print Assumptions C74_fixed_incident_flux.
Theorem C74_clear_group :
  forall b g,
  sn_quad (b_q b) -> g < b_ng b ->
  exists b', bsn_clear b g = Ok b' /\ same_setup b b' /\
  (forall s o a, valid b s o a g -> map (@length R) (flux b' s o a g) = map (@length R) (flux b s o a g) /\
     forall row x, In row (flux b' s o a g) -> In x row -> x = 0%R) /\
  (forall s o a g', valid b s o a g' -> g' <> g -> flux b' s o a g' = flux b s o a g').
Proof. exact @clear_group. Qed.
Print Assumptions C74_clear_group.
Example C74_case : exists b', bsn_set {| b_q := case_q; b_ng := 1; b_bc := fun s => if s =? 2 then Fixed (fun g io a => [[INR (io + 10 * a)]]) else Vacuum;
     b_flux := fun s g n => [[0%R]] |} 0 = Ok b' /\ flux b' 2 1 1 0 = [[INR 11]] /\ flux b' 2 2 1 0 = [[0%R]].
Proof. eexists. split; [reflexivity|]. repeat split; reflexivity. Qed.
