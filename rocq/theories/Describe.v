(** * Description of the data, /repo/VolterraBasis/gle_estimation.py:140-150 and
    /repo/VolterraBasis/basis/_data_describe.py:30-31.

    One coordinate of the position: numpy works coordinate by coordinate.  Skewness and
    kurtosis are handled as the variance (taken from the first trajectory) and left out.
    [scipy.stats.describe] refuses an empty array; its variance has one degree of freedom
    removed and is not a number for a single sample ([None]). *)
From mathcomp Require Import all_ssreflect all_algebra.
From Verif Require Import Base.
Set Implicit Arguments.
Unset Strict Implicit.
Unset Printing Implicit Defensive.
Import GRing.Theory Num.Theory.
Local Open Scope ring_scope.

Section Describe.
Variable R : realFieldType.

Record describe_result := Describe {
  nobs : nat; dmin : R; dmax : R; dmean : R; dvar : option R }.

(** scipy.stats.describe(x, axis=0, ddof=1) *)
Definition describe (x : seq R) : res describe_result :=
  match x with
  | [::] => Err ValueError
  | a :: l =>
      let n := size x in
      let mean := (\sum_(v <- x) v) / n%:R in
      Ok (Describe n (foldl Num.min a l) (foldl Num.max a l) mean
            (if n is 1 then None else Some ((\sum_(v <- x) (v - mean) ^+ 2) / (n.-1)%:R)))
  end.

(** _data_describe.py:30-31 *)
Definition sum_describe (d1 d2 : describe_result) : describe_result :=
  Describe (nobs d1 + nobs d2)
    (Num.min (dmin d1) (dmin d2)) (Num.max (dmax d1) (dmax d2))
    ((dmean d1 * (nobs d1)%:R + dmean d2 * (nobs d2)%:R) / (nobs d1 + nobs d2)%:R)
    (dvar d1).

(** gle_estimation.py:140-150 *)
Definition describe_data (trajs : seq (seq R)) : res describe_result :=
  let! set := mapM describe trajs in
  match set with
  | [::] => Err OutOfBounds
  | d :: ds => Ok (foldl sum_describe d ds)
  end.

End Describe.
