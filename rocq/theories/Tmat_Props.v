(** * Theorems on time-dependent materials (C125) *)
From Coq Require Import Lra Lia.
From Verif Require Import Base BaseR Material_Model Kinetics_Model Kinetics_Spec Kinetics_Proofs Tmat_Model Tmat_Spec Tmat_Proofs Tmat_Proofs2.
Open Scope nat_scope.

(** C125 *)
Theorem C125_constant_history :
  forall km hist x u, foldM (constant_update km) hist (constant_new km) = Ok x ->
  agree (fun a b => same_data a b /\ same_flags a b) (constant_update km x u) (constant_update km (constant_new km) u).
Proof. exact @constant_history. Qed.
Print Assumptions C125_constant_history.

Theorem C125_constant_values :
  forall km0 km u, kfinalize km0 = Ok km -> 0 < nm (kb km) -> c_syn u = false -> c_k u = 1%R -> 1 <= c_order u <= 6 ->
  exists y, constant_update km (constant_new km) u = Ok y /\ same_data y km.
Proof. exact @constant_values. Qed.
Print Assumptions C125_constant_values.

(** A material with upscatter, a history of three updates, and a step after it. *)
Example C125_case :
  exists km x y, kfinalize with_up = Ok km /\ 0 < nm (kb km) /\ ss (kb km) 0 1 0 = 1%R /\
  foldM (constant_update km)
    [at_time 0; {| c_t := 1; c_dt := 2; c_order := 2; c_syn := true; c_k := 2 |}; at_time 5] (constant_new km) = Ok x /\
  constant_update km x (at_time 1) = Ok y.
Proof.
  assert (K : exists km, kfinalize with_up = Ok km /\ 0 < nm (kb km) /\ ss (kb km) 0 1 0 = 1%R).
  { unfold kfinalize. cbn [np with_up with_base seq forallb kb ng vel no_up set_scatter material_new]. rewrite pos1. cbn [andb].
    eexists. split; [reflexivity|]. split; [cbn; lia|reflexivity]. }
  destruct K as (km & K & P & U).
  assert (S : forall hist, (forall u, In u hist -> 1 <= c_order u <= 6) -> exists x, foldM (constant_update km) hist (constant_new km) = Ok x).
  { intros hist. induction hist as [|u hist IH] using rev_ind; intros H; [eexists; reflexivity|].
    destruct IH as [x E]; [intros; apply H, in_or_app; auto|]. 
    assert (FA : forall l1 l2 s, foldM (constant_update km) (l1 ++ l2) s = do x <- foldM (constant_update km) l1 s; foldM (constant_update km) l2 x).
    { induction l1 as [|a l IHl]; intros l2 s; cbn [app foldM bind]; auto. destruct (constant_update km s a); cbn [bind]; auto. }
    rewrite FA, E. cbn [bind foldM].
    pose proof (@constant_history km hist x u E) as A.
    assert (G : exists y, constant_update km (constant_new km) u = Ok y).
    { unfold constant_update. rewrite td_before.
      assert (Bd : exists a0, bdf (c_order u) 0 = Ok a0).
      { assert (IU : In u (hist ++ [u])) by (apply in_or_app; right; left; reflexivity). specialize (H u IU).
        unfold bdf, bdf_table. destruct (c_order u) as [|[|[|[|[|[|[|o]]]]]]]; try lia; cbn; eauto. }
      destruct Bd as [a0 ->]. cbn [bind]. unfold kfinalize in K |- *.
      cbn [np with_up with_base seq forallb kb ng vel no_up set_scatter material_new] in K. rewrite pos1 in K. cbn [andb] in K. inversion K; subst km.
      cbn. rewrite pos1. cbn. eauto. }
    destruct G as [y G]. rewrite G in A. destruct (constant_update km x u); cbn [agree] in A; try contradiction. cbn [bind]. eauto. }
  destruct (S [at_time 0; {| c_t := 1; c_dt := 2; c_order := 2; c_syn := true; c_k := 2 |}; at_time 5]) as [x E].
  { intros u [<-|[<-|[<-|[]]]]; cbn; lia. }
  destruct (S ([at_time 0; {| c_t := 1; c_dt := 2; c_order := 2; c_syn := true; c_k := 2 |}; at_time 5] ++ [at_time 1])) as [y Ey].
  { intros u [<-|[<-|[<-|[<-|[]]]]]; cbn; lia. }
  cbn [app foldM] in Ey, E. exists km, x, y. repeat (split; [assumption|]).
  destruct (constant_update km (constant_new km) (at_time 0)) as [x1| |]; cbn [bind] in *; try discriminate.
  match type of E with context [constant_update km x1 ?v] => destruct (constant_update km x1 v) as [x2| |] end; cbn [bind] in *; try discriminate.
  destruct (constant_update km x2 (at_time 5)) as [x3| |]; cbn [bind] in *; try discriminate. inversion E; subst.
  destruct (constant_update km x (at_time 1)); cbn [bind] in *; congruence.
Qed.

Theorem C125_linear_history_partial :
  forall times mats x0 hist x u, linear_new mats = Ok x0 -> foldM (linear_call times mats) hist x0 = Ok x ->
  agree same_data (linear_call times mats x u) (linear_call times mats x0 u).
Proof. exact @linear_history. Qed.
Print Assumptions C125_linear_history_partial.

Theorem C125_linear_flags_refuted :
  exists times mats x0 early late, linear_new mats = Ok x0 /\
  (exists x a b, linear_call times mats x0 early = Ok x /\ linear_call times mats x late = Ok a /\ linear_call times mats x0 late = Ok b /\
     ss (kb a) 0 1 0 = 1%R /\ ss (kb b) 0 1 0 = 1%R /\ downscatter (kb a) false = true /\ downscatter (kb b) false = false) /\
  (exists x a b, linear_call times mats x0 late = Ok x /\ linear_call times mats x early = Ok a /\ linear_call times mats x0 early = Ok b /\
     ss (kb a) 0 1 0 = 0%R /\ ss (kb b) 0 1 0 = 0%R /\ upscatter_cutoff (kb a) false = 0 /\ upscatter_cutoff (kb b) false = 2).
Proof.
  destruct flags_stale as (x0 & H). exists [0; 1]%R, [no_up; with_up], x0, (at_time 0), (at_time 1). exact H.
Qed.
Print Assumptions C125_linear_flags_refuted.

(** What an update leaves: the table at that time, fission divided by the
    eigenvalue, and the synthetic terms if asked for. *)
Theorem C125_linear_value :
  (forall times mats self u d, (1 <= length times)%nat -> length mats = length times -> increasing times ->
  (1 <= c_order u <= 6)%nat -> positive_data self ->
  exists y, linear_call times mats self u = Ok y /\ ng (kb y) = ng (kb self) /\ nm (kb y) = nm (kb self) /\ np y = np self /\
    vel y = vel self /\ lam y = lam self /\
    forall m, (m < nm (kb self))%nat -> exists tab, (forall q, defined q self -> interpolates times (fun i => value q (nth i mats d) m) (c_t u) (tab q)) /\
      (forall i, (i < np self)%nat -> beta y i m = tab (QBeta i)) /\
      (forall g i, (g < ng (kb self))%nat -> (i < np self)%nat -> chid y g i m = tab (QChid g i)) /\
      (forall g gp, (g < ng (kb self))%nat -> (gp < ng (kb self))%nat -> ss (kb y) g gp m = tab (QSs g gp)) /\
      forall g, (g < ng (kb self))%nat ->
        sa (kb y) g m = tab (QSa g) /\ nu (kb y) g m = tab (QNu g) /\ dc (kb y) g m = tab (QDc g) /\
        sf (kb y) g m = tab (QSf g) / c_k u /\ nsf (kb y) g m = tab (QNu g) * tab (QSf g) / c_k u /\
        (c_syn u = false -> st (kb y) g m = tab (QSt g) /\ chi (kb y) g m = tab (QChi g)) /\
        (c_syn u = true -> st (kb y) g m = tab (QSt g) + bcoef (c_order u) 0 / (vel self g * c_dt u) /\
           chi (kb y) g m = (1 - rsum (np self) (fun i => tab (QBeta i))) * tab (QChi g) +
             rsum (np self) (fun i => lam self i * tab (QChid g i) * c_dt u * tab (QBeta i) / (bcoef (c_order u) 0 + c_dt u * lam self i))))%R.
Proof. exact linear_value. Qed.
Print Assumptions C125_linear_value.
Example C125_value_case : exists y, linear_call [0; 1]%R [no_up; with_up] no_up {| c_t := (1/2)%R; c_dt := 2; c_order := 2; c_syn := true; c_k := 2 |} = Ok y /\
  ss (kb y) 0 1 0 = (1/2)%R.
Proof.
  destruct (@C125_linear_value [0; 1]%R [no_up; with_up] no_up {| c_t := (1/2)%R; c_dt := 2; c_order := 2; c_syn := true; c_k := 2 |} no_up) as (y & E & _ & _ & _ & _ & _ & V).
  - cbn. lia.
  - reflexivity.
  - intros i Hi. cbn in Hi. destruct i; [cbn; lra|lia].
  - cbn. lia.
  - split; intros; cbn in *; [lia|lra].
  - exists y. split; [exact E|]. destruct (V 0) as (tab & T & _ & _ & S & _); [cbn; lia|]. rewrite S by (cbn; lia).
    destruct (T (QSs 0 1)) as (_ & _ & I); [cbn; lia|]. cbn [c_t] in I. rewrite (I 0) by (cbn; try lia; lra). cbn. field.
Qed.
