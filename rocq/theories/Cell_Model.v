(** * Cell_Model: the cell (segment) balance solvers of the discretised
    transport equation.
    Modelled: src/transport/Equation_DD_{1D,2D,3D}, Equation_SD_{1D,2D},
    Equation_SC_{1D,2D}, Equation_SC_MOC: setup_angle and solve.
    Simplifications: double is R, std::exp is exp; each definition returns the
    center flux and the outgoing flux(es) for one cell; the accumulation into
    phi and psi is in Sweep_Model.  mu, eta, xi are the quadrature's values in
    octant 0.  Not modelled: the debug-only Require checks. *)
From Verif Require Import BaseR.

(** Equation_DD_1D.i.hh 19-58 *)
Definition dd1 (sigma mu dx q pin : R) : R * R :=
  let cx := 2 * mu / dx in
  let coef := 1 / (sigma + cx) in
  let pc := coef * (q + cx * pin) in
  (pc, 2 * pc - pin).
(** Equation_DD_2D.cc 42-56, Equation_DD_2D.i.hh 17-50; (VERT, HORZ) *)
Definition dd2 (sigma mu eta dx dy q pv ph : R) : R * (R * R) :=
  let cx := 2 * mu / dx in let cy := 2 * eta / dy in
  let coef := 1 / (sigma + cx + cy) in
  let pc := coef * (q + cx * pv + cy * ph) in
  (pc, (2 * pc - pv, 2 * pc - ph)).
(** Equation_DD_3D.cc 43-63, Equation_DD_3D.i.hh 17-48; (YZ, XZ, XY) *)
Definition dd3 (sigma mu eta xi dx dy dz q p1 p2 p3 : R) : R * (R * R * R) :=
  let cx := 2 * mu / dx in let cy := 2 * eta / dy in let cz := 2 * xi / dz in
  let coef := 1 / (sigma + cx + cy + cz) in
  let pc := coef * (q + cx * p1 + cy * p2 + cz * p3) in
  (pc, (2 * pc - p1, 2 * pc - p2, 2 * pc - p3)).
(** Equation_SD_1D.i.hh 19-60 *)
Definition sd1 (sigma mu dx q pin : R) : R * R :=
  let cx := mu / dx in
  let coef := 1 / (sigma + cx) in
  let pc := coef * (q + cx * pin) in
  (pc, pc).
(** Equation_SD_2D.cc 44-59, Equation_SD_2D.i.hh 19-50 *)
Definition sd2 (sigma mu eta dx dy q pv ph : R) : R * (R * R) :=
  let cx := mu / dx in let cy := eta / dy in
  let coef := 1 / (sigma + cx + cy) in
  let pc := coef * (q + cx * pv + cy * ph) in
  (pc, (pc, pc)).
(** Equation_SC_1D.i.hh 19-61 *)
Definition sc1 (sigma mu dx q pin : R) : R * R :=
  let tau := sigma * dx / mu in
  let A := exp (- tau) in
  let pavg := pin * (1 - A) / tau + q * (sigma * dx + mu * (A - 1)) / (sigma * sigma * dx) in
  (pavg, A * pin + q * (1 - A) / sigma).
(** Equation_SC_2D.cc 44-58, Equation_SC_2D.i.hh 21-85; (VERT, HORZ) *)
Definition sc2 (sigma mu eta dx dy q pv ph : R) : R * (R * R) :=
  let Q := q / sigma in
  let alpha := sigma * (dx / mu) in
  let beta := sigma * (dy / eta) in
  let rho := alpha / beta in
  let v := pv - Q in let h := ph - Q in
  let (ov, oh) :=
    if Rle_dec rho 1 then
      let e := exp (- alpha) in let m := (1 - e) / alpha in
      (Q + v * (1 - rho) * e + h * rho * m, Q + v * m)
    else
      let e := exp (- beta) in let m := (1 - e) / beta in
      (Q + h * m, Q + v * m / rho + h * (1 - 1 / rho) * e) in
  (Q - (ov - pv) / alpha - (oh - ph) / beta, (ov, oh)).
(** Equation_SC_MOC.i.hh 19-62: segment average and outgoing flux; t is
    length * d_inv_sin[d_polar]. *)
Definition moc (sigma t q pin : R) : R * R :=
  let A := exp (- sigma * t) in
  let B := (1 - A) / sigma in
  let C := t / sigma * (1 - B / t) in
  (1 / t * (B * pin + C * q), A * pin + B * q).
(** Equation_SC_MOC.i.hh 62-79: what one segment adds to the region's scalar flux. *)
Definition moc_phi (w sigma length inv_sin width volume q pin : R) : R :=
  w * (fst (moc sigma (length * inv_sin) q pin) * (width * length * (1 / volume))).
