(** * Construction of the B-spline basis: VolterraBasis/basis/_local_features.py:12-23, 48-68.

    [splrep] and [splev] of scipy (FITPACK) are modelled for what the code uses: the knots chosen for an
    interpolating spline ([curfit], or [percur] when periodic), the search of the knot interval
    ([splev]) and the values of the splines that do not vanish there ([fpbspl]).  One coordinate;
    several coordinates are laid out by LocalBasis.v.  Knots given by the user are assumed increasing
    in the theorems (FITPACK checks the order). *)
From mathcomp Require Import all_ssreflect all_algebra.
From Verif Require Import Base.
Set Implicit Arguments.
Unset Strict Implicit.
Unset Printing Implicit Defensive.
Import GRing.Theory Num.Theory.
Local Open Scope ring_scope.

Section BSpline.
Variable R : realFieldType.
Implicit Types (x t : seq R) (k : nat).

(** [fpcurf], s = 0: end points repeated, interior knots at the data points (odd degree) or half way. *)
Definition interior k x (j : nat) : R :=
  if odd k then nth 0 x (j + k.+1./2) else (nth 0 x (j + k./2) + nth 0 x (j + k./2).+1) / 2%:R.
Definition curfit_knots k x : seq R :=
  nseq k.+1 (head 0 x) ++ mkseq (interior k x) (size x - k.+1) ++ nseq k.+1 (last 0 x).

(** [fpperi], s = 0: one period of knots, continued periodically by [k] knots on both sides. *)
Definition period_knot k x (i : nat) : R :=
  if [|| i == 0%N, i.+1 == size x | odd k] then nth 0 x i else (nth 0 x i + nth 0 x i.-1) / 2%:R.
Definition percur_knots k x : seq R :=
  let per := last 0 x - head 0 x in
  let m := size x in
  mkseq (fun i => if (i < k)%N then period_knot k x (i + m.-1 - k) - per
                  else if (i < k + m)%N then period_knot k x (i - k)
                  else period_knot k x (i - k - m.-1) + per) (m + 2 * k).

(** The checks of [splrep], and the knots and number of coefficients it returns. *)
Definition splrep_knots (periodic : bool) k x : res (seq R) :=
  let! _ := guard ((0 < k) && (k <= 5))%N TypeError in
  let! _ := guard (k < size x)%N TypeError in
  Ok (if periodic then percur_knots k x else curfit_knots k x).

(** [splev]: the interval [l], from [k] up, with [t_l <= a < t_{l+1}], kept inside the range. *)
Fixpoint search t (nk1 : nat) (a : R) (fuel l : nat) : nat :=
  if fuel is fuel'.+1 then
    if (l.+1 < nk1)%N && (nth 0 t l.+1 <= a) then search t nk1 a fuel' l.+1 else l
  else l.
Definition interval t k (a : R) : nat := search t (size t - k.+1) a (size t) k.

(** [fpbspl]: values of the [j + 1] splines of degree [j] that do not vanish on interval [l]. *)
Fixpoint fpbspl t (l : nat) (a : R) (j : nat) : seq R :=
  if j is j'.+1 then
    let hh := fpbspl t l a j' in
    let f i := let d := nth 0 t (l + i.+1) - nth 0 t (l + i.+1 - j) in
               if d == 0 then 0 else nth 0 hh i / d in
    mkseq (fun i => (if (i < j)%N then f i * (nth 0 t (l + i.+1) - a) else 0)
                  + (if (0 < i)%N then f i.-1 * (a - nth 0 t (l + i - j)) else 0)) j.+1
  else [:: 1].

Definition splev t k (c : seq R) (a : R) : R :=
  let l := interval t k a in
  \sum_(i < k.+1) nth 0 c (l - k + i) * nth 0 (fpbspl t l a k) i.

(** _local_features.py:12-23.  [splrep] returns as many coefficients as knots. *)
Definition get_bspline_basis (knots : seq R) k (periodic : bool) : res (seq (seq R * seq R * nat)) :=
  let! t := splrep_knots periodic k knots in
  let ncoeffs := size t in
  Ok (mkseq (fun ispline => (t, mkseq (fun ispl => if ispl == ispline then 1 else 0) ncoeffs, k)) (size knots)).

(** Lines 51-54: [numpy.linspace] between the extreme values. *)
Definition linspace (a b : R) (n : nat) : seq R := mkseq (fun i => a + (b - a) / n.-1%:R * i%:R) n.

(** Lines 48-58, 60-67: the values of all splines at one point. *)
Definition bspline_values (bsplines : seq (seq R * seq R * nat)) (a : R) : seq R :=
  [seq splev s.1.1 s.2 s.1.2 a | s <- bsplines].
Definition bspline_fit (lo hi : R) (n_knots k : nat) (periodic : bool) := get_bspline_basis (linspace lo hi n_knots) k periodic.
End BSpline.
