(** * Model of the source builders and of the flux container
    Source: /repo/src/transport/{ScatterSource,FissionSource,SweepSource,State}.
    Simplifications: [double] is [R]; the material is the record of
    Material_Model (total in its indices); external sources are functions of
    their arguments; vectors are lists whose accesses are checked. *)
From Verif Require Import Base BaseR Loop Util_Model Material_Model.
Open Scope nat_scope.

(** s[cell] += v(cell) for all cells: the inner loops of all builders. *)
Definition add_cells (n : nat) (v : nat -> res R) (s : list R) : res (list R) :=
  for_ 0 n s (fun cell s => do x <- v cell; do y <- rd s cell; wr s cell (y + x)%R).

(** ScatterSource.hh 106-127: mesh cell count, material map, adjoint flag and
    the state's fluxes. *)
Record src := { cells : nat; mat : mtl; mmap : list nat; adj : bool; flux : list (list R) }.

(** ScatterSource.i.hh 109-119, FissionSource.i.hh 132-143 *)
Definition g_from (x : src) (g gp : nat) : nat := if adj x then g else gp.
Definition g_to (x : src) (g gp : nat) : nat := if adj x then gp else g.
(** ScatterSource.i.hh 96-105 *)
Definition lo (x : src) (g : nat) : nat := lower (mat x) g (adj x).
Definition hi (x : src) (g : nat) : nat := upper (mat x) g (adj x).
(** ScatterSource.i.hh 122-127 *)
Definition groups (a b : nat) (inc : bool) : list nat :=
  map Z.to_nat (range (Z.of_nat a) (Z.of_nat b) inc).

(** One term phi[cell] * sigma_s(mat_map[cell], to, from); [sigma_s] reads
    d_sigma_s[to][from][m], so group indices are checked against the number of
    groups. *)
Definition sig_s (x : src) (cell gt gf : nat) : res R :=
  do k <- rd (mmap x) cell;
  if (gt <? ng (mat x)) && (gf <? ng (mat x)) && (k <? nm (mat x)) then Ok (ss (mat x) gt gf k) else UB.

(** ScatterSource.i.hh 16-28 *)
Definition scat_within (x : src) (g : nat) (phi : list R) (s : list R) : res (list R) :=
  add_cells (cells x) (fun c => do p <- rd phi c; do v <- sig_s x c g g; Ok (p * v)%R) s.

(** The group loop shared by ScatterSource.i.hh 38-48, 61-70 and 83-92. *)
Definition scat_groups (x : src) (g : nat) (gs : list nat) (phi : list (list R)) (s : list R) : res (list R) :=
  foldM (fun s gp =>
    add_cells (cells x) (fun c => do f <- rd phi gp; do p <- rd f c;
                                  do v <- sig_s x c (g_to x g gp) (g_from x g gp); Ok (p * v)%R) s) gs s.

(** ScatterSource.i.hh 31-49 *)
Definition scat_in (x : src) (g : nat) (s : list R) : res (list R) :=
  scat_groups x g (filter (fun gp => negb (g =? gp)) (groups (lo x g) (hi x g) true)) (flux x) s.
(** ScatterSource.i.hh 52-71 *)
Definition scat_down (x : src) (g cutoff : nat) (s : list R) : res (list R) :=
  scat_groups x g (groups (lo x g) cutoff false) (flux x) s.
(** ScatterSource.i.hh 74-93 *)
Definition scat_total (x : src) (g cutoff : nat) (phi : list (list R)) (s : list R) : res (list R) :=
  scat_groups x g (groups cutoff (hi x g) true) phi s.

(** ** Fission source (FissionSource.hh 120-150) *)
Record fis := { fsrc : src; dens : list R; fsource : list (list R); fscale : R }.

Definition chi_at (x : src) (cell g : nat) : res R :=
  do k <- rd (mmap x) cell; if (g <? ng (mat x)) && (k <? nm (mat x)) then Ok (chi (mat x) g k) else UB.
Definition nsf_at (x : src) (cell g : nat) : res R :=
  do k <- rd (mmap x) cell; if (g <? ng (mat x)) && (k <? nm (mat x)) then Ok (nsf (mat x) g k) else UB.

(** FissionSource.cc 17-37 *)
Definition fis_new (x : src) : fis :=
  {| fsrc := x; dens := repeat 0%R (cells x); fsource := repeat (repeat 0%R (cells x)) (ng (mat x)); fscale := 1%R |}.

Definition with_dens (x : fis) (d : list R) : fis :=
  {| fsrc := fsrc x; dens := d; fsource := fsource x; fscale := fscale x |}.

(** FissionSource.cc 40-59 *)
Definition fis_initialize (x : fis) : res fis :=
  let s := fsrc x in
  do d <- for_ 0 (cells s) (dens x) (fun c d =>
            do d <- wr d c 0%R;
            for_ 0 (ng (mat s)) d (fun g d => do v <- nsf_at s c g; do y <- rd d c; wr d c (y + v)%R));
  let n := fold_left (fun acc v => (acc + Rabs v)%R) d 0%R in
  Ok (with_dens x (map (fun v => (v * (1 / n))%R) d)).

(** FissionSource.cc 62-65 *)
Definition fis_set_scale (x : fis) (v : R) : fis :=
  {| fsrc := fsrc x; dens := dens x; fsource := fsource x; fscale := v |}.

(** FissionSource.i.hh 32-45 *)
Definition fis_update (x : fis) : res fis :=
  let s := fsrc x in
  do d <- for_ 0 (ng (mat s)) (repeat 0%R (length (dens x))) (fun g d =>
            add_cells (cells s) (fun c =>
              do f <- rd (flux s) g; do p <- rd f c;
              do v <- (if adj s then chi_at s c g else nsf_at s c g); Ok (p * v)%R) d);
  Ok (with_dens x d).

(** FissionSource.i.hh 16-28 *)
Definition fis_setup_outer (x : fis) (scale : R) : res fis :=
  let s := fsrc x in
  do q <- for_ 0 (ng (mat s)) (fsource x) (fun g q =>
            for_ 0 (cells s) q (fun c q =>
              do v <- (if adj s then nsf_at s c g else chi_at s c g);
              do d <- rd (dens x) c;
              do row <- rd q g;
              do row <- wr row c (scale * d * v)%R;
              wr q g row));
  Ok {| fsrc := s; dens := dens x; fsource := q; fscale := scale |}.

(** FissionSource.i.hh 72-86 *)
Definition fis_within (x : fis) (g : nat) (phi s : list R) : res (list R) :=
  let y := fsrc x in
  add_cells (cells y) (fun c =>
    do p <- rd phi c; do u <- chi_at y c g; do v <- nsf_at y c g; Ok (p * fscale x * u * v)%R) s.

Definition fis_groups (x : fis) (g : nat) (gs : list nat) (phi : list (list R)) (s : list R) : res (list R) :=
  let y := fsrc x in
  foldM (fun s gp => add_cells (cells y) (fun c =>
    do f <- rd phi gp; do p <- rd f c;
    do u <- chi_at y c (g_to y g gp); do v <- nsf_at y c (g_from y g gp);
    Ok (p * fscale x * u * v)%R) s) gs s.
(** FissionSource.i.hh 89-108 *)
Definition fis_in (x : fis) (g : nat) (s : list R) : res (list R) :=
  fis_groups x g (filter (fun gp => negb (gp =? g)) (seq 0 (ng (mat (fsrc x))))) (flux (fsrc x)) s.
(** FissionSource.i.hh 111-129 *)
Definition fis_total (x : fis) (g : nat) (phi : list (list R)) (s : list R) : res (list R) :=
  fis_groups x g (seq 0 (ng (mat (fsrc x)))) phi s.

(** ** Sweep source (SweepSource.hh 150-200)
    [ext] are the moment sources (cell, group), [dext] the discrete sources
    (cell, group, angle); [fiss] is the optional fission source. *)
Record swp := { ssrc : src; ext : list (nat -> nat -> R); dext : list (nat -> nat -> nat -> R);
  fiss : option fis; implicit : bool; fixed : list R; scat : list R }.

Definition with_fixed (x : swp) (f : list R) : swp :=
  {| ssrc := ssrc x; ext := ext x; dext := dext x; fiss := fiss x; implicit := implicit x; fixed := f; scat := scat x |}.
Definition with_scat (x : swp) (f : list R) : swp :=
  {| ssrc := ssrc x; ext := ext x; dext := dext x; fiss := fiss x; implicit := implicit x; fixed := fixed x; scat := f |}.

(** v[cell] = 0.0 for all cells *)
Definition zero_cells (n : nat) (s : list R) : res (list R) := for_ 0 n s (fun c s => wr s c 0%R).

(** SweepSource.i.hh 22-48 *)
Definition build_fixed (x : swp) (g : nat) : res swp :=
  let n := cells (ssrc x) in
  do f <- zero_cells n (fixed x);
  do f <- foldM (fun f e => add_cells n (fun c => Ok (e c g)) f) (ext x) f;
  do f <- match fiss x with
          | Some q => if implicit x then Ok f
                      else do qf <- rd (fsource q) g; add_cells n (fun c => rd qf c) f
          | None => Ok f
          end;
  Ok (with_fixed x f).

(** SweepSource.i.hh 51-62; calling a null fission source is UB. *)
Definition build_fixed_with_scatter (x : swp) (g : nat) : res swp :=
  do x <- build_fixed x g;
  do f <- scat_in (ssrc x) g (fixed x);
  do f <- (if implicit x then match fiss x with Some q => fis_in q g f | None => UB end else Ok f);
  Ok (with_fixed x f).

(** SweepSource.i.hh 65-75 *)
Definition build_fixed_with_downscatter (x : swp) (g cutoff : nat) : res swp :=
  do x <- build_fixed x g;
  do f <- scat_down (ssrc x) g cutoff (fixed x);
  Ok (with_fixed x f).

(** SweepSource.i.hh 78-89 *)
Definition build_within_group_scatter (x : swp) (g : nat) (phi : list R) : res swp :=
  do s <- zero_cells (cells (ssrc x)) (scat x);
  do s <- scat_within (ssrc x) g phi s;
  do s <- (if implicit x then match fiss x with Some q => fis_within q g phi s | None => UB end else Ok s);
  Ok (with_scat x s).

(** SweepSource.i.hh 92-109 *)
Definition build_total_scatter (x : swp) (g cutoff : nat) (phi : list (list R)) : res swp :=
  do p <- rd phi g;
  do s <- scat_total (ssrc x) g cutoff phi (repeat 0%R (length p));
  do s <- (if implicit x then match fiss x with Some q => fis_total q g phi s | None => UB end else Ok s);
  Ok (with_scat x s).

(** SweepSource.i.hh 112-159; [mtod] is (MtoD)(o,a,0,0), [angle] index(o,a). *)
Definition sweep_source (x : swp) (mtod : R) (g angle : nat) (s : list R) : res (list R) :=
  let n := cells (ssrc x) in
  do s <- for_ 0 n s (fun c s => do f <- rd (fixed x) c; do k <- rd (scat x) c; wr s c ((f + k) * mtod)%R);
  foldM (fun s e => add_cells n (fun c => Ok (e c g angle)) s) (dext x) s.

(** SweepSource.i.hh 162-170 *)
Definition sweep_reset (x : swp) : res swp :=
  do f <- zero_cells (cells (ssrc x)) (fixed x);
  do s <- zero_cells (cells (ssrc x)) (scat x);
  Ok (with_scat (with_fixed x f) s).

(** ** State (State.hh 205-240) *)
Record state := { sgroups : nat; scells : nat; sangles : nat; store_psi : bool;
  moments : list (list R); psi : list (list (list R)) }.

(** State.cc 18-81: [nmom] is the number of moments of the indexer (1 without quadrature). *)
Definition state_new (ngroups ncells nmom nangles : nat) (sp : bool) : state :=
  {| sgroups := ngroups; scells := ncells; sangles := nangles; store_psi := sp;
     moments := repeat (repeat 0%R (ncells * nmom)) ngroups;
     psi := if sp then repeat (repeat (repeat 0%R ncells) nangles) ngroups else [] |}.

(** State.i.hh 57-60 *)
Definition set_moments (x : state) (g : nat) (f : list R) : res state :=
  do m <- wr (moments x) g f;
  Ok {| sgroups := sgroups x; scells := scells x; sangles := sangles x; store_psi := store_psi x;
        moments := m; psi := psi x |}.

(** The loop shared by State.cc 84-100 (clear) and 103-119 (scale). *)
Definition state_map (h : R -> R) (x : state) : res state :=
  do mp <- for_ 0 (sgroups x) (moments x, psi x) (fun g mp =>
    for_ 0 (scells x) mp (fun i mp =>
      let '(m, p) := mp in
      do row <- rd m g; do v <- rd row i; do row <- wr row i (h v); do m <- wr m g row;
      if store_psi x then
        do p <- for_ 0 (sangles x) p (fun a p =>
          do pg <- rd p g; do pa <- rd pg a; do v <- rd pa i; do pa <- wr pa i (h v);
          do pg <- wr pg a pa; wr p g pg);
        Ok (m, p)
      else Ok (m, p)));
  Ok {| sgroups := sgroups x; scells := scells x; sangles := sangles x; store_psi := store_psi x;
        moments := fst mp; psi := snd mp |}.
(** State.cc 84-100 *)
Definition state_clear (x : state) : res state := state_map (fun _ => 0%R) x.
(** State.cc 103-119 *)
Definition state_scale (x : state) (f : R) : res state := state_map (fun v => (v * f)%R) x.
