(** * Angle_Model: quadratures and moment indexing.
    Modelled: src/angle/Quadrature.{cc,i.hh}, ProductQuadrature.cc,
    ProductQuadratureAP.t.hh, AzimuthalQuadrature.t.hh, PolarQuadrature.t.hh,
    BaseQuadrature.hh, BaseUniform.hh, the mirroring half of BaseGL.hh and
    BaseGC.hh, UniformEqual.cc, UserQuadrature.hh, MomentIndexer.{cc,i.hh}.
    Simplifications: double is R; size_t is nat; the octant signs +1.0/-1.0 are
    the integers 1/-1; pow((float)2, dim) is 2^dim; printing is dropped. *)
From Verif Require Import Base BaseR Util_Model.
Open Scope nat_scope.

(** Nested vector read and write. *)
Definition rd2 {A} (t : list (list A)) (i j : nat) : res A := do r <- rd t i; rd r j.
Definition wr2 {A} (t : list (list A)) (i j : nat) (x : A) : res (list (list A)) :=
  do r <- rd t i; do r' <- wr r j x; wr t i r'.

(** ** Quadrature *)

Record quad := { q_dim : nat; q_nang : nat; q_noct : nat; q_nao : nat;
  q_wt : list R; q_mu : list R; q_eta : list R; q_xi : list R;
  q_sign : list (list Z); q_inc : list (list nat); q_out : list (list nat);
  q_adj : bool }.

(** Quadrature.cc 42-72 *)
Definition octant_sign : list (list Z) :=
  [[1; 1; 1]; [-1; 1; 1]; [-1; -1; 1]; [1; -1; 1];
   [1; 1; -1]; [-1; 1; -1]; [-1; -1; -1]; [1; -1; -1]]%Z.
(** Quadrature.cc 75-119 *)
Definition incident_table (dim : nat) : list (list nat) :=
  match dim with
  | 1 => [[0]; [1]]
  | 2 => [[3; 0]; [1; 2]; [0; 1]; [2; 3]]
  | _ => [[7; 4; 3; 0]; [5; 6; 1; 2]; [4; 5; 0; 1]; [6; 7; 2; 3]; [0; 1; 2; 3]; [4; 5; 6; 7]]
  end.
Definition outgoing_table (dim : nat) : list (list nat) :=
  match dim with
  | 1 => [[1]; [0]]
  | 2 => [[1; 2]; [3; 0]; [2; 3]; [0; 1]]
  | _ => [[5; 6; 1; 2]; [7; 4; 3; 0]; [6; 7; 2; 3]; [4; 5; 0; 1]; [4; 5; 6; 7]; [0; 1; 2; 3]]
  end.
(** Quadrature.cc 19-121 *)
Definition quad_new (dim nang : nat) : res quad :=
  if (0 <? dim) && (dim <? 4) then
    let noct := 2 ^ dim in
    let nao := nang / noct in
    Ok {| q_dim := dim; q_nang := nang; q_noct := noct; q_nao := nao;
          q_wt := repeat 0%R nao; q_mu := repeat 0%R nao; q_eta := repeat 0%R nao; q_xi := repeat 0%R nao;
          q_sign := octant_sign; q_inc := incident_table dim; q_out := outgoing_table dim;
          q_adj := false |}
  else Err.
(** Quadrature.cc 130-144 *)
Definition set_adjoint (q : quad) (v : bool) : quad :=
  if eqb v (q_adj q) then q
  else {| q_dim := q_dim q; q_nang := q_nang q; q_noct := q_noct q; q_nao := q_nao q;
          q_wt := q_wt q; q_mu := q_mu q; q_eta := q_eta q; q_xi := q_xi q;
          q_sign := map (map (fun s => s * -1)%Z) (q_sign q);
          q_inc := q_inc q; q_out := q_out q; q_adj := v |}.
(** A subclass constructor storing its cosines and weights. *)
Definition with_cosines (q : quad) (mu eta xi wt : list R) : quad :=
  {| q_dim := q_dim q; q_nang := q_nang q; q_noct := q_noct q; q_nao := q_nao q;
     q_wt := wt; q_mu := mu; q_eta := eta; q_xi := xi;
     q_sign := q_sign q; q_inc := q_inc q; q_out := q_out q; q_adj := q_adj q |}.
(** Any sequence of calls. *)
Definition set_adjoints (q : quad) (l : list bool) : quad := fold_left set_adjoint l q.
(** Quadrature.cc 147-160 *)
Definition incident_octant (q : quad) (s : nat) : res (list nat) := rd (q_inc q) s.
Definition outgoing_octant (q : quad) (s : nat) : res (list nat) := rd (q_out q) s.
(** Quadrature.i.hh 43-50 *)
Definition index (q : quad) (o a : nat) : nat := a + o * q_nao q.
(** Quadrature.i.hh 87-106; axis 0 is mu, 1 is eta, 2 is xi. *)
Definition cosine (q : quad) (axis o a : nat) : res R :=
  do s <- rd2 (q_sign q) o axis;
  do c <- rd (match axis with 0 => q_mu q | 1 => q_eta q | _ => q_xi q end) a;
  Ok (IZR s * c)%R.
(** Quadrature.i.hh 108-115 *)
Definition angular_norm (d : nat) : R := if d =? 1 then (1 / 2)%R else (1 / (4 * PI))%R.

(** ** MomentIndexer *)

(** -l, -l+1, ..., l *)
Definition m_range (l : nat) : list Z := map (fun k => Z.of_nat k - Z.of_nat l)%Z (seq 0 (2 * l + 1)).
(** MomentIndexer.cc 55-83; C++ % truncates like Z.rem. *)
Definition m_index (dim l : nat) : list Z :=
  match dim with
  | 1 => [0%Z]
  | 2 => filter (fun m => Z.eqb (Z.rem (m + Z.of_nat l) 2) 0) (m_range l)
  | _ => m_range l
  end.
Definition number_moments (dim L : nat) : nat :=
  match dim with
  | 1 => L + 1
  | 2 => (L + 1) * (L + 2) / 2
  | _ => (L + 1) * (L + 1)
  end.
(** MomentIndexer.cc 30-41: fill d_l and d_m through the running index j. *)
Definition fill_lm (dim L : nat) : res (list nat * list Z * nat) :=
  foldM (fun st l =>
    foldM (fun st m => let '(dl, dm, j) := st in
             do dl' <- wr dl j l; do dm' <- wr dm j m; Ok (dl', dm', S j))
          (m_index dim l) st)
    (seq 0 (S L))
    (repeat 0 (number_moments dim L), repeat 0%Z (number_moments dim L), 0).
Record indexer := { mi_n : nat; mi_l : list nat; mi_m : list Z }.
(** MomentIndexer.cc 15-42 *)
Definition indexer_new (dim L : nat) : res indexer :=
  do st <- fill_lm dim L;
  let '(dl, dm, _) := st in Ok {| mi_n := number_moments dim L; mi_l := dl; mi_m := dm |}.
(** MomentIndexer.i.hh 33-48: first match, or number_moments. *)
Fixpoint find_lm (dl : list nat) (dm : list Z) (l : nat) (m : Z) (i : nat) : nat :=
  match dl, dm with
  | a :: dl', b :: dm' => if (a =? l) && Z.eqb b m then i else find_lm dl' dm' l m (S i)
  | _, _ => i
  end.
Definition mi_index (x : indexer) (l : nat) (m : Z) : nat := find_lm (mi_l x) (mi_m x) l m 0.

(** ** Base quadratures: abscissae and weights on [a,b] *)

(** BaseQuadrature.hh 128-138 *)
Definition scale_and_shift (a0 b0 a1 b1 : R) (xw : list R * list R) : list R * list R :=
  let scale := ((b1 - a1) / (b0 - a0))%R in
  let shift := (a1 - a0 * scale)%R in
  (map (fun x => x + shift)%R (vec_scale (fst xw) scale), vec_scale (snd xw) scale).
(** BaseUniform.hh 31-36 *)
Definition uniform_rule (a b : R) (m : nat) : list R * list R :=
  (linspace_center a b m, map (fun _ => (b - a) / INR m)%R (seq 0 m)).
(** BaseUniform.hh 56-68; [srt] is std::sort. *)
Definition uniform_cosine_rule (srt : list R -> list R) (a b : R) (m : nat) : list R * list R :=
  scale_and_shift 0 PI a b
    (srt (map acos (linspace_center (-1) 1 m)), map (fun _ => PI / INR m)%R (seq 0 m)).
(** BaseUniform.hh 90-97; an assignment later in the program replaces an earlier one. *)
Definition simpson_weight (m i : nat) : R :=
  let w0 := (1.125 / INR m)%R in let w1 := (0.75 / INR m)%R in
  let base := if i <? m - m mod 3 then (if (i mod 3) mod 2 =? 0 then w0 else w1) else 0%R in
  if m mod 3 =? 2 then (if i =? m - 2 then 1 / INR m else base)%R
  else if negb (m mod 3 =? 0) then (if i =? m - 1 then 1 / INR m else base)%R
  else base.
(** BaseUniform.hh 87-99 *)
Definition simpson_rule (a b : R) (m : nat) : list R * list R :=
  scale_and_shift 0 1 a b (linspace_center 0 1 m, map (simpson_weight m) (seq 0 m)).
(** BaseGL.hh 115-126, BaseGC.hh 104-115: a double rule from the half rule
    [(xh,wh)] on [-1,1] (its generation is not modelled: any lists).  Writing
    index j = i + m/2 and k = m/2 - i - 1 for every i puts the mirrored half first. *)
Definition double_rule (a b : R) (half : list R * list R) : list R * list R :=
  let '(xh, wh) := scale_and_shift (-1) 1 0 1 half in
  scale_and_shift (-1) 1 a b (rev (map Ropp xh) ++ xh, rev wh ++ wh).

(** ** Azimuthal, polar and product quadratures *)

Record azi := { az_phi : list R; az_cos : list R; az_sin : list R; az_wt : list R }.
(** AzimuthalQuadrature.t.hh 21-47; [Q] is the rule built on [0, pi/2]. *)
Definition azimuthal (Q : R -> R -> nat -> list R * list R) (na : nat) (normalize : bool) : azi :=
  let '(x, w) := Q 0%R (acos 0) na in
  {| az_phi := x; az_cos := map cos x; az_sin := map sin x;
     az_wt := if normalize then vec_scale w (acos 0 / vec_sum w) else w |}.
Record pol := { po_cos : list R; po_sin : list R; po_wt : list R }.
(** PolarQuadrature.t.hh 20-54: the positive half of the rule on [-1,1]. *)
Definition polar_quad (Q : R -> R -> nat -> list R * list R) (np : nat) (normalize : bool) : pol :=
  let '(x, w) := Q (-1)%R 1%R (2 * np) in
  let c := map (fun i => nth (i + np) x 0%R) (seq 0 np) in
  let v := map (fun i => nth (i + np) w 0%R) (seq 0 np) in
  {| po_cos := c; po_sin := map (fun t => sqrt (1 - t * t)) c;
     po_wt := if normalize then vec_scale v (1 / vec_sum v) else v |}.

(** ProductQuadrature.cc 267-290 *)
Definition angle_of (np a p : nat) : nat := p + a * np.
Definition azimuth_of (na np n : nat) : nat := (n mod (na * np)) / np.
Definition polar_of (np n : nat) : nat := n mod np.

(** ProductQuadrature.cc 293-313: one entry per angle n, in the loop's order
    (azimuth outer, polar inner). *)
Record entry := { e_mu : R; e_eta : R; e_xi : R; e_wt : R }.
Definition product_set (dim : nat) (A : azi) (P : pol) (na np : nat) : list entry :=
  let scale := if dim =? 2 then 2%R else 1%R in
  flat_map (fun a => map (fun p =>
    {| e_mu := nth p (po_sin P) 0 * nth a (az_cos A) 0;
       e_eta := nth p (po_sin P) 0 * nth a (az_sin A) 0;
       e_xi := nth p (po_cos P) 0;
       e_wt := scale * nth p (po_wt P) 0 * nth a (az_wt A) 0 |}%R) (seq 0 np)) (seq 0 na).
Definition entry0 := {| e_mu := 0; e_eta := 0; e_xi := 0; e_wt := 0 |}%R.
(** ProductQuadrature.cc 327-343; [Insist] throws. *)
Definition Rltb (x y : R) : bool := if Rlt_dec x y then true else false.
Definition verify (P : pol) (es : list entry) (na np : nat) : bool :=
  forallb (fun p => Rltb (if p =? 0 then 0%R else nth (p - 1) (po_cos P) 0%R) (nth p (po_cos P) 0%R) &&
    forallb (fun a => Rltb (e_mu (nth (angle_of np a p) es entry0))
                           (if a =? 0 then 1%R else e_mu (nth (angle_of np (a - 1) p) es entry0)))
            (seq 0 na)) (seq 0 np).
(** ProductQuadrature.cc 293-324, ProductQuadratureAP.t.hh 20-41 *)
Definition product_build (dim : nat) (A : azi) (P : pol) (na np : nat) : res (list entry) :=
  if 1 <? dim then
    let es := product_set dim A P na np in if verify P es na np then Ok es else Err
  else Err.

(** ** ProductQuadrature incident and outgoing index tables *)

Record slot := { s_oct : nat; s_ang : nat; s_io : nat }.
Definition slot0 := {| s_oct := 0; s_ang := 0; s_io := 0 |}.
(** ProductQuadrature.cc 43-54 *)
Definition number_polar (dim np s : nat) : nat := if s <? 4 then (if dim =? 2 then np else 2 * np) else np.
Definition number_azimuths (na s : nat) : nat := if s <? 4 then 2 * na else 4 * na.
Definition is_o (o x y : nat) : bool := (o =? x) || (o =? y).
(** ProductQuadrature.cc 65-167: (azi_inc, pol_inc, azi_out, pol_out) for side s,
    octants o_inc and o_out and angle a. *)
Definition slot_index (dim na np s o_inc o_out a : nat) : nat * nat * nat * nat :=
  let pol := polar_of np a in
  let azi := azimuth_of na np a in
  if s <? 4 then
    let pol_inc := if dim =? 3 then (if o_inc <=? 3 then np - pol - 1 else pol + np) else pol in
    let pol_out := if dim =? 3 then (if o_out <=? 3 then np - pol - 1 else pol + np) else pol in
    match s with
    | 0 => (if is_o o_inc 3 7 then na - azi - 1 else azi + na, pol_inc,
            if is_o o_out 1 5 then na - azi - 1 else azi + na, pol_out)
    | 1 => (if is_o o_inc 1 5 then na - azi - 1 else azi + na, pol_inc,
            if is_o o_out 3 7 then na - azi - 1 else azi + na, pol_out)
    | 2 => let azi_inc := if is_o o_inc 1 5 then 2 * na - azi - 1 else azi * 1 in
           (azi_inc, pol_inc,
            if is_o o_out 3 7 then 2 * na - azi - 1 else azi_inc * 1, pol_out)
    | _ => (if is_o o_inc 3 7 then 2 * na - azi - 1 else azi * 1, pol_inc,
            if is_o o_out 1 5 then 2 * na - azi - 1 else azi * 1, pol_out)
    end
  else
    let hor o := if is_o o 0 4 then 1 * azi
                 else if is_o o 1 5 then 2 * na - azi - 1
                 else if is_o o 2 6 then 2 * na + azi
                 else if is_o o 3 7 then 4 * na - azi - 1 else azi in
    if s =? 4 then (hor o_inc, np - pol - 1, hor o_out, 1 * pol)
    else (hor o_inc, 1 * pol, hor o_out, np - pol - 1).
(** ProductQuadrature.cc 55-177 for one side: both tables. *)
Definition side_tables (dim na np s : nat) : res (list (list slot) * list (list slot)) :=
  let blank := repeat (repeat slot0 (number_polar dim np s)) (number_azimuths na s) in
  do incs <- rd (incident_table dim) s;
  do outs <- rd (outgoing_table dim) s;
  foldM (fun st oo =>
    do o_inc <- rd incs oo; do o_out <- rd outs oo;
    foldM (fun st a => let '(ti, tj) := st in
      let '(ai, pi, ao, po) := slot_index dim na np s o_inc o_out a in
      do ti' <- wr2 ti ai pi {| s_oct := o_inc; s_ang := a; s_io := oo |};
      do tj' <- wr2 tj ao po {| s_oct := o_out; s_ang := a; s_io := oo |};
      Ok (ti', tj')) (seq 0 (na * np)) st)
    (seq 0 ((dim - 1) * 2)) (blank, blank).
(** ProductQuadrature.cc 361-382 *)
Definition incident_index (dim na np s a p : nat) : res slot :=
  do t <- side_tables dim na np s; rd2 (fst t) a p.
Definition outgoing_index (dim na np s a p : nat) : res slot :=
  do t <- side_tables dim na np s; rd2 (snd t) a p.

(** ** UniformEqual *)

(** UniformEqual.cc 19-86: the positive octant, azimuth j outer, polar i inner. *)
Definition ue_xi (order i : nat) : R :=
  let num_xi := INR (2 * order) in (2 / num_xi * (INR i + 1 / 2 + 1 / 2 * num_xi) - 1)%R.
Definition uniform_equal (dim order : nat) : list entry :=
  let nang := 2 ^ dim * order * order in
  let nao := nang / 2 ^ dim in
  let del_xi := (ue_xi order 1 - ue_xi order 0)%R in
  let coef := (4 * PI / (INR nao * 8 * del_xi))%R in
  flat_map (fun j => map (fun i =>
    let t := ue_xi order i in let w := (coef * (INR j + 1 / 2))%R in
    {| e_mu := cos w * sqrt (1 - t * t); e_eta := sin w * sqrt (1 - t * t); e_xi := t;
       e_wt := 4 * PI / INR nang |}%R) (seq 0 (2 * order / 2))) (seq 0 (4 * order / 4)).

(** ** UserQuadrature: UserQuadrature.hh 36-56 for dim > 1. *)
Definition user_entry (mu eta w : R) : entry :=
  {| e_mu := mu; e_eta := eta; e_xi := sqrt (1 - mu * mu - eta * eta); e_wt := w |}%R.
