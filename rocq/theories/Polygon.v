(** Model of the point-in-polygon test and of the diagonal test (/repo/src/math/polygon.rs) over the
    rationals. [pos] and [neg] are [is_positive] and [is_negative]; their answers at zero depend on the
    sign of zero. *)
From Coq Require Import QArith List Bool ZArith.
From Verif Require Import Base Mesh Tess GeoSpec Geo GeoMath.
Import ListNotations.

Section Polygon.
  Variables pos neg : Q -> bool.

  (** math/polygon.rs:60-70, one turn of the loop: what is added to [count] *)
  Definition crossing (point a b : pt) : Z :=
    if Qle_bool (snd a) (snd point) then
      if Qlt_bool (snd point) (snd b) && pos (perp_dot (vsub b a) (vsub point a)) then 1%Z else 0%Z
    else if Qle_bool (snd b) (snd point) && neg (perp_dot (vsub b a) (vsub point a)) then (-1)%Z else 0%Z.

  (** math/polygon.rs:56-73 *)
  Definition contains (points : list pt) (point : pt) : res bool :=
    let* count := foldM (fun count i =>
        let* a := at_ points i in
        let* b := at_ points (Nat.modulo (Nat.add i 1) (length points)) in
        Ok (count + crossing point a b)%Z) (seq 0 (length points)) 0%Z in
    Ok (negb (count =? 0)%Z).

  (** math/polygon.rs:75-123; [eps] is [S::EPS]. An empty polygon panics on [num_points() - 1] or on [ps[i]]. *)
  Definition valid_diagonal (eps : Q) (ps : list pt) (i j : nat) : res bool :=
    let n := length ps in
    if Nat.eqb i j then Ok false else
    if Nat.eqb (j + 1) i || Nat.eqb (i + 1) j then Ok true else
    assert (negb (Nat.eqb n 0)) (
    if (Nat.eqb i 0 && Nat.eqb j (n - 1)) || (Nat.eqb j 0 && Nat.eqb i (n - 1)) then Ok true else
    let* a := at_ ps i in
    let* b := at_ ps j in
    let mid := ((fst a + fst b) * (1 # 2), (snd a + snd b) * (1 # 2)) in
    let* inside := contains ps mid in
    if negb inside then Ok false else
    foldM (fun ok start =>
      if negb ok then Ok false else
      let end_ := Nat.modulo (Nat.add start 1) n in
      if Nat.eqb start i || Nat.eqb start j || Nat.eqb end_ i || Nat.eqb end_ j then Ok true else
      let* s := at_ ps start in
      let* t := at_ ps end_ in
      Ok (match intersect_line a b s t eps eps with Some _ => false | None => true end)) (seq 0 n) true).
End Polygon.
