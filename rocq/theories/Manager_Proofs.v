(** * Proofs on the managers *)
From Coq Require Import String.
From Verif Require Import Base BaseR Util_Model Manager_Model Manager_Spec.
Open Scope string_scope.
Open Scope nat_scope.
Set Implicit Arguments.
Unset Strict Implicit.

Lemma bind_ok A B (x : res A) (f : A -> res B) b :
  bind x f = Ok b -> exists a, x = Ok a /\ f a = Ok b.
Proof. destruct x; simpl; intros H; try discriminate; eauto. Qed.

Lemma get_str_ok Sub (d : db Sub) k s : get_str d k = Ok s <-> mfind k (m_str d) = Some s.
Proof.
  unfold get_str; simpl. destruct (mfind k (m_str d)); simpl; split; congruence.
Qed.

Lemma str_or_says Sub (d : db Sub) k dflt s : str_or d k dflt = Ok s <-> says d k dflt s.
Proof.
  unfold str_or, says. destruct (check d k) eqn:E.
  - rewrite get_str_ok. split; [auto|]. intros [[H _]|[_ H]]; congruence.
  - split; [intros H; left; split; congruence|]. intros [[_ H]|[H _]]; congruence.
Qed.

Lemma says_fun Sub (d : db Sub) k dflt s s' : says d k dflt s -> says d k dflt s' -> s = s'.
Proof. rewrite <- !str_or_says. congruence. Qed.

Lemma disc_diff s : disc_of s = DIFF <-> s = "diffusion".
Proof.
  unfold disc_of. split.
  - destruct (String.eqb s "scmoc" || String.eqb s "ddmoc"); [discriminate|].
    destruct (String.eqb_spec s "diffusion"); [auto|discriminate].
  - intros ->. reflexivity.
Qed.

Lemma outer_named s o : outer_of s = Some o ->
  s = match o with OuterGS => "GS" | OuterCMFD => "CMFD" | OuterGMRES => "GMRES" end.
Proof.
  unfold outer_of.
  destruct (String.eqb_spec s "GS"); [intros [= <-]; auto|].
  destruct (String.eqb_spec s "CMFD"); [intros [= <-]; auto|].
  destruct (String.eqb_spec s "GMRES"); [intros [= <-]; auto|discriminate].
Qed.
Lemma inner_named s i : inner_of s = Ok i ->
  s = match i with InnerSI => "SI" | InnerGMRES => "GMRES" end.
Proof.
  unfold inner_of.
  destruct (String.eqb_spec s "SI"); [intros [= <-]; auto|].
  destruct (String.eqb_spec s "GMRES"); [intros [= <-]; auto|discriminate].
Qed.
Lemma sweep_named dim s w : sweep_of dim s = Ok w ->
  s = match w with SweepDD => "dd" | SweepSD => "sd" | SweepSC => "sc" end /\
  1 <= dim <= 3 /\ (dim = 3 -> w = SweepDD).
Proof.
  unfold sweep_of. destruct dim as [|[|[|[|n]]]]; try discriminate;
    destruct (String.eqb_spec s "dd"); try (intros [= <-]; repeat split; auto; lia);
    destruct (String.eqb_spec s "sd"); try (intros [= <-]; repeat split; auto; lia); try discriminate;
    destruct (String.eqb_spec s "sc"); try (intros [= <-]; repeat split; auto; lia); discriminate.
Qed.

Section Inv.
  Variables (Sub Q F : Type) (parts : db Sub -> nat -> disc -> res unit)
            (details : db Sub -> kind -> res unit) (run : solver Q -> R -> F -> F) (zero : F).
  Variables (dim : nat) (mult fis : bool).
  Notation event := (call Sub Q * bool)%type.
  Notation step := (step parts details run zero).
  Notation calls := (calls parts details run zero).

  (** The solver was built by the last successful set_solver, after the last
      setup. *)
  Definition built (h : list event) (M : manager Q F) (s : solver Q) : Prop :=
    exists pre d0 mid d post,
      (h = pre ++ (Setup d0, true) :: mid ++ (SetSolver d, true) :: post)%list /\
      never (@is_setup Sub Q) mid /\ never (@is_setup Sub Q) post /\ never (@is_build Sub Q) post /\
      named d0 d dim (s_kind s) /\ s_sources s = given (pre ++ mid).

  Definition Inv (h : list event) (M : manager Q F) : Prop :=
    g_dim M = dim /\ g_mult M = mult /\ g_fission M = mult || fis /\
    g_state M = setups h /\ g_sources M = given h /\
    (g_setup M = false -> g_fsrc M = None) /\
    (g_setup M = true -> g_fsrc M = (if mult || fis then Some (g_state M) else None) /\
       exists pre d0 post eq, (h = pre ++ (Setup d0, true) :: post)%list /\
         never (@is_setup Sub Q) post /\ says d0 "equation" "dd" eq /\ g_disc M = disc_of eq) /\
    (g_ready M = true -> g_setup M = true /\ exists s, g_solver M = Some s /\ built h M s /\
       s_state s = g_state M /\ s_fission s = g_fsrc M /\ s_mult s = mult) /\
    (g_ready M = false -> forall pre d post, (h = pre ++ (SetSolver d, true) :: post)%list ->
       ~ never (@is_setup Sub Q) post).

  Lemma never_app f (a b : list event) : never f (a ++ b)%list <-> never f a /\ never f b.
  Proof.
    unfold never. split.
    - intros H; split; intros e He; apply H, in_or_app; auto.
    - intros [A B] e He. apply in_app_or in He as []; auto.
  Qed.
  Lemma never_one f (e : event) : f e = false -> never f [e].
  Proof. intros H e' [<-|[]]; auto. Qed.

  Lemma given_app (a b : list event) : given (a ++ b) = (given a ++ given b)%list.
  Proof. apply flat_map_app. Qed.
  Lemma setups_app (a b : list event) : setups (a ++ b) = setups a + setups b.
  Proof. unfold setups. rewrite filter_app, app_length. auto. Qed.

  Lemma snoc_split (h pre post : list event) e x :
    (h ++ [e] = pre ++ x :: post)%list ->
    (exists post', post = (post' ++ [e])%list /\ h = (pre ++ x :: post')%list) \/
    (post = [] /\ x = e /\ h = pre).
  Proof.
    intros H. destruct (@exists_last _ (x :: post)) as (l & y & E); [discriminate|].
    rewrite E, app_assoc in H. apply app_inj_tail in H as [H1 H2]. subst y.
    destruct l as [|x' l].
    - simpl in E. injection E as -> ->. right. subst h. rewrite app_nil_r. auto.
    - simpl in E. injection E as -> ->. left. exists l. subst h. auto.
  Qed.

  (** An event that is neither a setup nor a successful set_solver keeps the
      statements about the history. *)
  Lemma built_more h M M' s e :
    built h M s -> @is_setup Sub Q e = false -> @is_build Sub Q e = false -> built (h ++ [e]) M' s.
  Proof.
    intros (pre & d0 & mid & d & post & -> & A & B & C & D & E) H1 H2.
    exists pre, d0, mid, d, (post ++ [e])%list.
    split; [rewrite <- !app_assoc; simpl; rewrite <- app_assoc; auto|].
    split; [auto|]. split; [apply never_app; split; auto using never_one|].
    split; [apply never_app; split; auto using never_one|]. auto.
  Qed.

  Lemma Inv_same h M e :
    Inv h M -> @is_setup Sub Q e = false -> @is_build Sub Q e = false -> given [e] = [] ->
    Inv (h ++ [e]) M.
  Proof.
    intros (A & B & C & D & E & F1 & G & H & I) H1 H2 H3.
    assert (setups [e] = 0) by (unfold setups; simpl; rewrite H1; auto).
    split; [auto|]. split; [auto|]. split; [auto|].
    split; [rewrite setups_app; lia|].
    split; [rewrite given_app, H3, app_nil_r; auto|].
    split; [auto|].
    split. { intros S. destruct (G S) as (G1 & pre & d0 & post & eq & -> & G2 & G3).
      split; auto. exists pre, d0, (post ++ [e])%list, eq.
      split; [rewrite <- app_assoc; auto|]. split; [apply never_app; auto using never_one|auto]. }
    split. { intros R. destruct (H R) as (S & s & H4 & H5 & H6). split; auto.
      exists s. split; auto. split; auto. eapply built_more; eauto. }
    intros R pre d post Eq Nv. apply snoc_split in Eq as [(post' & -> & ->)|(-> & E' & ->)].
    - apply never_app in Nv as [Nv _]. eapply I; eauto.
    - subst e. discriminate H2.
  Qed.

  Lemma Inv_flux h M f : Inv h M -> Inv h (with_flux M f).
  Proof. intros H. exact H. Qed.

  Lemma setup_inv h M d M' : Inv h M -> setup parts zero d M = Ok M' -> Inv (h ++ [(Setup d, true)]) M'.
  Proof.
    intros (A & B & C & D & E & F1 & G & H & I) S. unfold setup in S.
    apply bind_ok in S as (eq & Eq & S). apply bind_ok in S as (u & _ & S).
    injection S as <-. unfold Inv; simpl.
    split; [auto|]. split; [auto|]. split; [auto|].
    split; [rewrite setups_app, D; unfold setups at 3; simpl; lia|].
    split; [rewrite given_app; simpl; rewrite app_nil_r; auto|].
    split; [discriminate|].
    split. { intros _. split.
      - rewrite C. destruct (mult || fis) eqn:E0; auto.
        destruct (g_setup M) eqn:E1; [destruct (G eq_refl) as [-> _]; auto|auto].
      - exists h, d, [], eq. split; auto. split; [intros ? []|].
        split; [apply str_or_says; auto|auto]. }
    split; [discriminate|].
    intros _ pre d' post E' Nv. apply snoc_split in E' as [(post' & -> & ->)|(-> & E' & ->)].
    - specialize (Nv (Setup d, true)). rewrite in_app_iff in Nv. simpl in Nv.
      specialize (Nv (or_intror (or_introl eq_refl))). discriminate.
    - discriminate.
  Qed.

  Lemma install_inv h M d k :
    Inv h M -> g_setup M = true ->
    (forall d0 eq, says d0 "equation" "dd" eq -> g_disc M = disc_of eq -> named d0 d dim k) ->
    Inv (h ++ [(SetSolver d, true)]) (install k M).
  Proof.
    intros (A & B & C & D & E & F1 & G & H & I) S N. unfold Inv; simpl.
    destruct (G S) as (G1 & pre & d0 & post & eq & Eh & G2 & G3 & G4).
    split; [auto|]. split; [auto|]. split; [auto|].
    split; [rewrite setups_app; unfold setups at 2; simpl; lia|].
    split; [rewrite given_app; simpl; rewrite app_nil_r; auto|].
    split; [auto|].
    split. { intros _. split; [auto|]. exists pre, d0, (post ++ [(SetSolver d, true)])%list, eq.
      split; [rewrite Eh, <- app_assoc; auto|]. split; [apply never_app; split; auto; apply never_one; auto|auto]. }
    split. { intros _. split; [auto|].
      exists {| s_kind := k; s_state := g_state M; s_fission := g_fsrc M; s_sources := g_sources M; s_mult := g_mult M |}.
      split; [auto|]. split; [|simpl; auto].
      exists pre, d0, post, d, []. split; [rewrite Eh, <- app_assoc; auto|].
      split; [auto|]. split; [intros ? []|]. split; [intros ? []|].
      split; [simpl; eauto|]. simpl. rewrite E, Eh. rewrite !given_app. simpl. auto. }
    discriminate.
  Qed.

  Lemma set_solver_inv h M d b M' : Inv h M -> set_solver details d M = Ok (b, M') ->
    Inv (h ++ [(SetSolver d, b)]) M'.
  Proof.
    intros J S. unfold set_solver in S. destruct (g_setup M) eqn:Es; simpl in S.
    2:{ injection S as <- <-. apply Inv_same; auto. }
    assert (Hd : g_dim M = dim) by apply J.
    destruct (g_disc M) eqn:Ed.
    3:{ apply bind_ok in S as (u & _ & S). injection S as <- <-.
        apply install_inv; auto. intros d0 eq Hs Hq. rewrite Ed in Hq. symmetry in Hq.
        apply disc_diff in Hq. subst eq. exact Hs. }
    all: apply bind_ok in S as (name & En & S);
      destruct (outer_of name) as [o|] eqn:Eo;
      [|injection S as <- <-; apply Inv_same; auto];
      apply bind_ok in S as (wg & Ewg & S); apply bind_ok in S as (i & Ei & S);
      apply bind_ok in S as (eq2 & Eq2 & S); apply bind_ok in S as (w & Ew & S);
      apply bind_ok in S as (u & _ & S); injection S as <- <-;
      apply install_inv; auto; intros d0 eq Hs Hq; rewrite Ed in Hq; simpl;
      apply str_or_says in En; apply str_or_says in Ewg; apply str_or_says in Eq2;
      apply outer_named in Eo; apply inner_named in Ei; rewrite Hd in Ew; apply sweep_named in Ew;
      subst name wg; destruct Ew as (-> & W1 & W2);
      (split; [intros Hx; pose proof (says_fun Hs Hx); subst eq; discriminate Hq|]); auto.
  Qed.

  Lemma step_inv h M c b M' : Inv h M -> step c M = Ok (b, M') -> Inv (h ++ [(c, b)]) M'.
  Proof.
    intros J S. destruct c as [d|q|d|k]; simpl in S.
    - apply bind_ok in S as (M1 & E & S). injection S as <- <-. eapply setup_inv; eauto.
    - injection S as <- <-. destruct q as [q|]; [|apply Inv_same; auto].
      destruct J as (A & B & C & D & E & F1 & G & H & I). unfold Inv; simpl.
      split; [auto|]. split; [auto|]. split; [auto|].
      split; [rewrite setups_app; unfold setups at 2; simpl; lia|].
      split; [rewrite given_app; simpl; rewrite E; auto|]. split; [auto|].
      split. { intros S. destruct (G S) as (G1 & pre & d0 & post & eq & -> & G2 & G3).
        split; auto. exists pre, d0, (post ++ [(SetSource (Some q), true)])%list, eq.
        split; [rewrite <- app_assoc; auto|]. split; [apply never_app; split; auto; apply never_one; auto|auto]. }
      split. { intros R. destruct (H R) as (S & s & H4 & H5 & H6). split; auto.
        exists s. split; auto. split; auto. eapply built_more; eauto. }
      intros R pre d post Eq Nv. apply snoc_split in Eq as [(post' & -> & ->)|(-> & E' & ->)].
      + apply never_app in Nv as [Nv _]. eapply I; eauto.
      + discriminate.
    - eapply set_solver_inv; eauto.
    - unfold solve in S. destruct (g_ready M); simpl in S.
      2:{ injection S as <- <-. apply Inv_same; auto. }
      destruct (g_solver M); [|discriminate]. injection S as <- <-.
      destruct (s_state s =? g_state M); [apply Inv_flux|]; apply Inv_same; auto.
  Qed.

  Lemma calls_inv cs : forall h M h' M', Inv h M -> calls cs M = Ok (h', M') -> Inv (h ++ h') M'.
  Proof.
    induction cs as [|c cs IH]; intros h M h' M' J S; simpl in S.
    - injection S as <- <-. rewrite app_nil_r. auto.
    - apply bind_ok in S as ([b M1] & S1 & S). apply bind_ok in S as ([h2 M2] & S2 & S).
      simpl in *. injection S as <- <-.
      replace (h ++ (c, b) :: h2)%list with ((h ++ [(c, b)]) ++ h2)%list by (rewrite <- app_assoc; auto).
      eapply IH; [|exact S2]. eapply step_inv; eauto.
  Qed.

  Lemma new_inv : Inv [] (new_manager Q zero dim mult fis).
  Proof.
    unfold Inv; simpl. split; [auto|]. split; [auto|]. split; [auto|]. split; [auto|]. split; [auto|].
    split; [auto|]. split; [discriminate|]. split; [discriminate|].
    intros _ pre d post E. destruct pre; discriminate.
  Qed.

  Lemma solve_true cs h M k M' :
    calls cs (new_manager Q zero dim mult fis) = Ok (h, M) ->
    solve run k M = Ok (true, M') ->
    exists pre d0 mid d post s,
      (h = pre ++ (Setup d0, true) :: mid ++ (SetSolver d, true) :: post)%list /\
      never (@is_setup Sub Q) mid /\ never (@is_setup Sub Q) post /\ never (@is_build Sub Q) post /\
      named d0 d dim (s_kind s) /\ s_sources s = given (pre ++ mid) /\
      s_state s = setups h /\ s_fission s = (if mult || fis then Some (setups h) else None) /\
      s_mult s = mult /\ M' = with_flux M (run s k (g_flux M)).
  Proof.
    intros E S. pose proof (calls_inv new_inv E) as (A & B & C & D & E1 & F1 & G & H & I).
    simpl in *. unfold solve in S. destruct (g_ready M) eqn:Er; [|discriminate].
    destruct (H eq_refl) as (Hs & s & Es & Hb & H1 & H2 & H3). simpl in S. rewrite Es in S.
    rewrite H1, Nat.eqb_refl in S. injection S as <-.
    destruct Hb as (pre & d0 & mid & d & post & Eh & X1 & X2 & X3 & X4 & X5).
    exists pre, d0, mid, d, post, s. rewrite H2, (proj1 (G Hs)), H1, D. auto 12.
  Qed.

  Lemma solve_false cs h M k M' :
    calls cs (new_manager Q zero dim mult fis) = Ok (h, M) ->
    solve run k M = Ok (false, M') ->
    M' = M /\ forall pre d post, (h = pre ++ (SetSolver d, true) :: post)%list ->
      ~ never (@is_setup Sub Q) post.
  Proof.
    intros E S. pose proof (calls_inv new_inv E) as (A & B & C & D & E1 & F1 & G & H & I).
    simpl in *. unfold solve in S. destruct (g_ready M) eqn:Er; simpl in S.
    - destruct (g_solver M); discriminate.
    - injection S as <-. split; [auto|]. intros pre d post Eh. exact (I eq_refl pre d post Eh).
  Qed.

  (** solve always returns. *)
  Lemma solve_returns cs h M k :
    calls cs (new_manager Q zero dim mult fis) = Ok (h, M) ->
    exists b M', solve run k M = Ok (b, M').
  Proof.
    intros E. pose proof (calls_inv new_inv E) as (A & B & C & D & E1 & F1 & G & H & I).
    unfold solve. destruct (g_ready M); simpl; eauto.
    destruct (H eq_refl) as (_ & s & -> & _). eauto.
  Qed.

  (** The flux is the one of the new state until a solve returns true. *)
  Lemma flux_only_solve cs : forall M h M',
    calls cs M = Ok (h, M') -> never (fun e : event => match e with (Solve _, true) => true | _ => false end) h ->
    g_flux M' = g_flux M \/ g_flux M' = zero.
  Proof.
    induction cs as [|c cs IH]; intros M h M' S Nv; simpl in S.
    - injection S as <- <-. auto.
    - apply bind_ok in S as ([b M1] & S1 & S). apply bind_ok in S as ([h2 M2] & S2 & S).
      simpl in *. injection S as <- <-.
      assert (Hn : never (fun e : event => match e with (Solve _, true) => true | _ => false end) h2)
        by (intros e He; apply Nv; right; auto).
      assert (H1 : g_flux M1 = g_flux M \/ g_flux M1 = zero).
      { destruct c as [d|q|d|k]; simpl in S1.
        - apply bind_ok in S1 as (M3 & E & S1). injection S1 as <- <-.
          unfold setup in E. apply bind_ok in E as (? & _ & E). apply bind_ok in E as (? & _ & E).
          injection E as <-. auto.
        - injection S1 as <- <-. destruct q; auto.
        - unfold set_solver in S1. destruct (negb (g_setup M)); [injection S1 as <- <-; auto|].
          destruct (g_disc M).
          3:{ apply bind_ok in S1 as (? & _ & S1). injection S1 as <- <-. auto. }
          all: apply bind_ok in S1 as (? & _ & S1); destruct (outer_of _);
            [|injection S1 as <- <-; auto];
            repeat (apply bind_ok in S1 as (? & _ & S1)); injection S1 as <- <-; auto.
        - unfold solve in S1. destruct (g_ready M); simpl in S1; [|injection S1 as <- <-; auto].
          destruct (g_solver M); [|discriminate]. injection S1 as <- <-.
          specialize (Nv (Solve k, true) (or_introl eq_refl)). discriminate. }
      destruct (IH _ _ _ S2 Hn) as [H2|H2]; [rewrite H2; auto|auto].
  Qed.
End Inv.

(** ** The eigenvalue manager *)
Section Eigen.
  Variables (Sub Q F : Type) (parts : db Sub -> nat -> disc -> res unit)
            (details : db Sub -> kind -> res unit) (run : solver Q -> R -> F -> F) (zero : F)
            (eig : string -> manager Q F -> F).

  (** With a supported outer solver the fixed source problem is ready: no
      external sources, no multiplication, and the fission source of the one
      state. *)
  Lemma eigen_ready (d : db Sub) dim (M : manager Q F) :
    eigen_manager Q parts details zero d dim = Ok M ->
    says d "equation" "dd" "diffusion" \/
      (exists o, (o = "GS" \/ o = "CMFD" \/ o = "GMRES") /\ says d "outer_solver" "GS" o) ->
    g_ready M = true /\ g_state M = 1 /\
    exists s, g_solver M = Some s /\ named d d dim (s_kind s) /\ s_state s = 1 /\
      s_fission s = Some 1 /\ s_sources s = [] /\ s_mult s = false.
  Proof.
    intros E Hn. unfold eigen_manager in E.
    apply bind_ok in E as (M0 & E0 & E). apply bind_ok in E as ([b M1] & E1 & E).
    simpl in E. injection E as <-.
    pose proof (setup_inv (new_inv Sub Q zero dim false true) E0) as J0.
    pose proof (set_solver_inv J0 E1) as J1.
    assert (Hb : g_ready M1 = true).
    { unfold setup in E0. apply bind_ok in E0 as (eq & Eq & E0). apply bind_ok in E0 as (u & _ & E0).
      injection E0 as <-. unfold set_solver in E1. simpl in E1.
      apply str_or_says in Eq. destruct (disc_of eq) eqn:Ed.
      3:{ apply bind_ok in E1 as (? & _ & E1). injection E1 as <- <-. auto. }
      all: assert (Ho : exists o, (o = "GS" \/ o = "CMFD" \/ o = "GMRES") /\ says d "outer_solver" "GS" o)
             by (destruct Hn as [Hn|Hn]; [pose proof (says_fun Eq Hn); subst eq; discriminate|auto]);
        destruct Ho as (o & Ho & Hs); apply str_or_says in Hs; rewrite Hs in E1; simpl in E1;
        destruct Ho as [-> | [-> | ->]]; simpl in E1;
        repeat (apply bind_ok in E1 as (? & _ & E1)); injection E1 as <- <-; auto. }
    destruct J1 as (A & B & C & D & E2 & F1 & G & H & I).
    destruct (H Hb) as (Hs & s & Es & Hbu & H1 & H2 & H3).
    split; [auto|]. split; [rewrite D; reflexivity|].
    exists s. split; [auto|].
    destruct Hbu as (pre & d0 & mid & d1 & post & Eh & X1 & X2 & X3 & X4 & X5).
    assert (Hl : (pre = [] /\ mid = [] /\ d0 = d /\ d1 = d)).
    { destruct pre as [|p0 pre]; simpl in Eh.
      - injection Eh as -> Eh. destruct mid as [|m mid]; simpl in Eh.
        + injection Eh as -> _ _. auto.
        + destruct mid; simpl in Eh; discriminate.
      - exfalso. injection Eh as _ Eh. destruct pre as [|p1 pre]; simpl in Eh; [discriminate|].
        destruct pre; simpl in Eh; discriminate. }
    destruct Hl as (-> & -> & -> & ->).
    split; [auto|]. rewrite H1, H2, (proj1 (G Hs)), D. simpl in *. auto.
  Qed.

  (** What a successful eigenvalue solve means. *)
  Lemma eigen_method (d : db Sub) (M M' : manager Q F) :
    eigen_solve eig d M = Ok (true, M') ->
    exists name, says d "eigen_solver" "PI" name /\ M' = with_flux M (eig name M) /\
      (name = "PI" \/ name = "arnoldi" \/ (name = "diffusion" /\ g_disc M = DIFF) \/
       (exists s i w, name = "cmfd" /\ g_solver M = Some s /\ s_kind s = Transport OuterCMFD i w) \/
       (exists s i w, name = "GD" /\ g_disc M <> DIFF /\ g_solver M = Some s /\ s_kind s = Transport OuterGMRES i w)).
  Proof.
    unfold eigen_solve. intros E. apply bind_ok in E as (name & En & E).
    apply str_or_says in En. exists name.
    destruct (String.eqb_spec name "PI"); [injection E as <-; auto 6|].
    destruct (String.eqb_spec name "diffusion").
    { destruct (g_disc M) eqn:Ed; try discriminate. injection E as <-. auto 7. }
    destruct (String.eqb_spec name "arnoldi"); [injection E as <-; auto 6|].
    destruct (String.eqb_spec name "cmfd").
    { destruct (g_solver M) as [s|] eqn:Es; [|discriminate].
      destruct (s_kind s) as [|[] i w] eqn:Ek; try discriminate. injection E as <-.
      split; [auto|]. split; [auto|]. right. right. right. left. exists s, i, w. auto. }
    destruct (String.eqb_spec name "GD"); [|discriminate].
    destruct (g_disc M) eqn:Ed; try discriminate;
      (destruct (g_solver M) as [s|] eqn:Es; [|discriminate]);
      destruct (s_kind s) as [|[] i w] eqn:Ek; try discriminate; injection E as <-;
      (split; [auto|]); (split; [auto|]); right; right; right; right; exists s, i, w;
      (split; [auto|]); (split; [discriminate|]); auto.
  Qed.

  (** The method of characteristics can be set up but never solved. *)
  Lemma moc_never (d : db Sub) (M M1 M' : manager Q F) eq :
    eq = "scmoc" \/ eq = "ddmoc" -> says d "equation" "dd" eq ->
    setup parts zero d M = Ok M1 ->
    g_disc M1 = MOC /\ set_solver details d M1 <> Ok (true, M').
  Proof.
    intros He Hs E. unfold setup in E. apply bind_ok in E as (eq' & Eq & E).
    apply bind_ok in E as (u & _ & E). injection E as <-.
    pose proof Eq as Eq2. apply str_or_says in Eq. pose proof (says_fun Eq Hs). subst eq'.
    split; [destruct He as [-> | ->]; reflexivity|].
    unfold set_solver. simpl. replace (disc_of eq) with MOC by (destruct He as [-> | ->]; reflexivity).
    intros S. apply bind_ok in S as (name & _ & S). destruct (outer_of name); [|discriminate].
    apply bind_ok in S as (wg & _ & S). apply bind_ok in S as (i & _ & S).
    rewrite Eq2 in S. simpl in S. apply bind_ok in S as (w & Ew & _).
    apply sweep_named in Ew as [-> _]. destruct w, He; discriminate.
  Qed.
End Eigen.

(** ** Witnesses *)
(** Solvers that report the sources they were built with. *)
Definition w_parts (_ : db unit) (_ : nat) (_ : disc) : res unit := Ok tt.
Definition w_details (_ : db unit) (_ : kind) : res unit := Ok tt.
Definition w_run (s : solver nat) (_ : R) (_ : list nat) : list nat := s_sources s.
Definition w_db : db unit := empty_db unit.
Definition w_bad : db unit := put w_db "outer_solver" (VStr "Jacobi").
Definition w_calls := calls w_parts w_details w_run [0].
Definition w_new := new_manager nat [0] 2 false false.

Lemma late_source :
  exists cs h M M', w_calls cs w_new = Ok (h, M) /\ given h = [7] /\
    solve w_run 1%R M = Ok (true, M') /\ g_flux M' = [].
Proof.
  exists [Setup w_db; SetSolver w_db; SetSource (Some 7)].
  do 3 eexists. split; [vm_compute; reflexivity|]. split; [vm_compute; reflexivity|]. split; reflexivity.
Qed.

Lemma stale_solver :
  exists cs d h M M', w_calls cs w_new = Ok (h ++ [(SetSolver d, false)], M)%list /\
    solve w_run 1%R M = Ok (true, M') /\ g_flux M' = [3] /\ g_flux M <> [3].
Proof.
  exists [SetSource (Some 3); Setup w_db; SetSolver w_db; SetSolver w_bad], w_bad.
  exists [(SetSource (Some 3), true); (Setup w_db, true); (SetSolver w_db, true)].
  do 2 eexists. split; [vm_compute; reflexivity|]. split; [vm_compute; reflexivity|]. split; [reflexivity|discriminate].
Qed.

Lemma eigen_not_ready :
  exists d M, eigen_manager nat w_parts w_details [0] d 2 = Ok M /\
    (forall k, solve w_run k M = Ok (false, M)) /\
    (forall eig : string -> manager nat (list nat) -> list nat,
       exists M', eigen_solve eig d M = Ok (true, M')).
Proof.
  exists w_bad. eexists. split; [vm_compute; reflexivity|]. split; [vm_compute; reflexivity|].
  intros eig. eexists. reflexivity.
Qed.

(** A sequence meeting the hypotheses: two sources, a solve on the first
    setup, a second setup with other methods. *)
Definition w_gm : db unit := put (put w_db "outer_solver" (VStr "GMRES")) "equation" (VStr "sc").
Example case_solve :
  exists h M M', w_calls [SetSource (Some 3); Setup w_db; SetSource None; SetSolver w_db; Solve 1%R;
                          Setup w_gm; SetSource (Some 4); SetSolver w_gm] w_new = Ok (h, M) /\
    solve w_run 1%R M = Ok (true, M') /\ g_flux M = [0] /\ g_flux M' = [3; 4] /\
    named w_gm w_gm 2 (Transport OuterGMRES InnerSI SweepSC).
Proof.
  do 3 eexists. split; [vm_compute; reflexivity|]. split; [vm_compute; reflexivity|]. split; [vm_compute; reflexivity|]. split; [vm_compute; reflexivity|].
  split; [intros [[H _]|[_ H]]; discriminate|].
  split; [right; split; reflexivity|]. split; [left; split; reflexivity|].
  split; [right; split; reflexivity|]. split; [lia|discriminate].
Qed.
