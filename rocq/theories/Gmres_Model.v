(** * Model of callow::GMRES
    Source: /repo/src/callow/solver/GMRES.cc, GMRES.i.hh, GMRES.hh.
    Simplifications: [double] is [R]; the work arrays v, d_H, d_c, d_s, g and y
    are total functions of their indices (every index used is at most the restart
    size, the size they are allocated with: GMRES.cc 26-31, 57, 64, 67); a
    division by zero, whose IEEE result is inf or NaN, is the outcome [UB];
    vectors are lists, operators and preconditioners are functions on lists
    which may fail; printing is not modelled. *)
From Verif Require Import Base BaseR Loop Vector_Model Solver_Model.
Open Scope R_scope.

Definition setf {A} (f : nat -> A) (k : nat) (v : A) : nat -> A := fun i => if (i =? k)%nat then v else f i.
Definition setH (H : nat -> nat -> R) (i j : nat) (v : R) : nat -> nat -> R :=
  fun a b => if ((a =? i) && (b =? j))%nat%bool then v else H a b.

(** v, d_H, d_c, d_s, g *)
Record gm := { g_v : nat -> list R; g_H : nat -> nat -> R; g_c : nat -> R; g_s : nat -> R; g_g : nat -> R }.

Definition vop := list R -> res (list R).
(** "if (d_P && d_pc_side == ...) d_P->apply(...)"; one of pl, pr is None. *)
Definition pre (p : option vop) (x : list R) : res (list R) := match p with Some ap => ap x | None => Ok x end.

(** GMRES.cc 139-155: v(k+1) <- inv(P_L) A inv(P_R) v(k) *)
Definition kop (mul : vop) (pl pr : option vop) (v : list R) : res (list R) :=
  do t <- pre pr v; do w <- mul t; pre pl w.

(** GMRES.cc 162-166: modified Gram-Schmidt *)
Definition mgs (k : nat) (v : nat -> list R) (w : list R) (H : nat -> nat -> R) : res (list R * (nat -> nat -> R)) :=
  for_ 0 (S k) (w, H) (fun j st => let '(w, H) := st in
    do h <- vdot w (v j);
    do w <- vaxpy w (- h) (v j);
    Ok (w, setH H j k h)).
(** GMRES.cc 183-188 *)
Definition reorth (k : nat) (v : nat -> list R) (w : list R) (H : nat -> nat -> R) : res (list R * (nat -> nat -> R)) :=
  for_ 0 k (w, H) (fun j st => let '(w, H) := st in
    do hr <- vdot (v j) w;
    do w <- vaxpy w (- hr) (v j);
    Ok (w, setH H j k (H j k + hr))).

(** GMRES.i.hh 26-36 *)
Definition apply_givens (k : nat) (c s : nat -> R) (H : nat -> nat -> R) : nat -> nat -> R :=
  fold_left (fun H i =>
    let g0 := c i * H i k - s i * H (S i) k in
    let g1 := s i * H i k + c i * H (S i) k in
    setH (setH H i k g0) (S i) k g1) (seq 0 k) H.

(** GMRES.i.hh 47-56: y is overwritten from the last entry to the first. *)
Definition compute_y (k : nat) (H : nat -> nat -> R) (g : nat -> R) (y : nat -> R) : res (nat -> R) :=
  for_ 0 k y (fun a y =>
    let i := (k - 1 - a)%nat in
    let yi := fold_left (fun s j => s - H i j * y j) (seq (S i) (k - S i)) (g i) in
    if Req_EM_T (H i i) 0 then UB else Ok (setf y i (yi / H i i))).

(** GMRES.cc 135-226: one inner iteration; the result is rho = |g_1|. *)
Definition gm_step (mul : vop) (pl pr : option vop) (mode : nat) (k : nat) (st : gm) : res (gm * R) :=
  do w <- kop mul pl pr (g_v st k);
  let norm_Av := norm L2 w in
  do (w, H) <- mgs k (g_v st) w (g_H st);
  let norm_Av_2 := norm L2 w in
  let H := setH H (S k) k norm_Av_2 in
  do (w, H) <-
    (if ((mode =? 1)%nat && (if Req_EM_T (norm_Av + 1 / 1000 * norm_Av_2) norm_Av then true else false) || (mode =? 2)%nat)%bool
     then do (w, H) <- reorth k (g_v st) w H; Ok (w, setH H (S k) k (norm L2 w))
     else Ok (w, H));
  let w := if Req_EM_T (H (S k) k) 0 then w else vscale w (1 / H (S k) k) in
  let H := apply_givens k (g_c st) (g_s st) H in
  let nu := sqrt (H k k * H k k + H (S k) k * H (S k) k) in
  if Req_EM_T nu 0 then UB
  else
    let ck := H k k / nu in
    let sk := - H (S k) k / nu in
    let H' := setH (setH H k k (ck * H k k - sk * H (S k) k)) (S k) k 0 in
    let g0 := ck * g_g st k - sk * g_g st (S k) in
    let g1 := sk * g_g st k + ck * g_g st (S k) in
    Ok ({| g_v := setf (g_v st) (S k) w; g_H := H'; g_c := setf (g_c st) k ck; g_s := setf (g_s st) k sk;
           g_g := setf (setf (g_g st) k g0) (S k) g1 |}, Rabs g1).

(** GMRES.cc 124-239: inner iterations; [fuel] = d_restart - k. The result is
    (k, iteration, done, arrays, monitor data). *)
Fixpoint inner_loop (p : params) mul pl pr mode (fuel k it : nat) (st : gm) (m : mon) : res (nat * nat * bool * gm * mon) :=
  match fuel with
  | O => Ok (k, it, false, st, m)
  | S f =>
      let it := S it in
      if (p_maxit p <=? S it)%nat then Ok (k, it, true, st, m)
      else
        do (st, rho) <- gm_step mul pl pr mode k st;
        do (b, m) <- monitor p it rho m;
        if b : bool then Ok (S k, it, true, st, m)
        else inner_loop p mul pl pr mode f (S k) it st m
  end.

(** GMRES.cc 247-260: x = x0 + inv(P_R) (y_0 v_0 + ...) *)
Definition update_x (pr : option vop) (k : nat) (v : nat -> list R) (y : nat -> R) (x0 : list R) : res (list R) :=
  do x <- for_ 0 k (vset x0 0) (fun i x => vaxpy x (y i) (v i));
  do x <- pre pr x;
  vadd x x0.

(** GMRES.cc 79-265: outer iterations; x0 and x agree at the top of the loop
    (lines 54 and 263). The loop needs at most maxit passes. *)
Fixpoint outer_loop (p : params) mul pl pr mode (restart : nat) (b : list R) (fuel it : nat) (st : gm) (y : nat -> R) (x : list R) (m : mon)
  : res (list R * mon) :=
  match fuel with
  | O => Ok (x, m)
  | S f =>
      if (p_maxit p <=? it)%nat then Ok (x, m)
      else
        do r <- mul x;
        do r <- vsub r b;
        do r <- pre pl (vscale r (-1));
        let rho := norm L2 r in
        do (stop, m) <- (if (it =? 0)%nat then monitor_init p rho m else Ok (false, m));
        if stop : bool then Ok (x, m)
        else if Req_EM_T rho 0 then UB
        else
          let st := {| g_v := setf (fun i => if (i <? restart)%nat then vset x 0 else g_v st i) 0%nat (vscale r (1 / rho));
                       g_H := g_H st; g_c := g_c st; g_s := g_s st;
                       g_g := setf (fun _ => 0) 0%nat rho |} in
          do (k, it, done, st, m) <- inner_loop p mul pl pr mode restart 0 it st m;
          do y <- compute_y k (g_H st) (g_g st) y;
          do x <- update_x pr k (g_v st) y x;
          if done : bool then Ok (x, m) else outer_loop p mul pl pr mode restart b f it st y x m
  end.

(** GMRES.cc 48-271 with the member d_H left by earlier calls in [st]. *)
Definition gmres_impl (p : params) mul pl pr mode restart (b x : list R) (st : gm) (m : mon) : res (list R * mon) :=
  outer_loop p mul pl pr mode restart b (p_maxit p) 0
    {| g_v := fun _ => vset x 0; g_H := g_H st; g_c := fun _ => 0; g_s := fun _ => 0; g_g := fun _ => 0 |} (fun _ => 0) x m.
Definition gmres (p : params) mul pl pr mode restart (b x : list R) (st : gm) :=
  solve p (gmres_impl p mul pl pr mode restart b x st).
