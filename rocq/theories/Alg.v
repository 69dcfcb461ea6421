(** Model of the scalar and vector arithmetic over an arbitrary ring (exact arithmetic; floating-point
    rounding is not modelled). *)
From Coq Require Import List Arith Bool.
From Verif Require Import Base Mesh Tess.
Import ListNotations.
Set Implicit Arguments.
Unset Strict Implicit.

Section Alg.
  Variables (R : Type) (zero one : R) (add mul sub : R -> R -> R) (opp : R -> R).
  Infix "+" := add. Infix "*" := mul. Infix "-" := sub. Notation "- x" := (opp x).

  (** math/scalar.rs:218-233 [neumaier_summation]; [ge s v] is [s.abs() >= v.abs()] *)
  Definition neumaier_step (ge : R -> R -> bool) (st : R * R * nat) (value : R) : R * R * nat :=
    match st with (sum, c, count) =>
      let t := sum + value in
      (t, if ge sum value then c + ((sum - t) + value) else c + ((value - t) + sum), S count)
    end.
  Definition neumaier (ge : R -> R -> bool) (l : list R) : R * nat :=
    match fold_left (neumaier_step ge) l (zero, zero, O) with (sum, c, count) => (sum + c, count) end.

  (** math/scalar.rs:238-255 [kahan_summation] *)
  Definition kahan_step (st : R * R * nat) (value : R) : R * R * nat :=
    match st with (sum, c, count) =>
      let y := value - c in
      let t := sum + y in
      (t, (t - sum) - y, S count)
    end.
  Definition kahan (l : list R) : R * nat :=
    match fold_left kahan_step l (zero, zero, O) with (sum, c, count) => (sum, count) end.

  (** math/polygon.rs:28-39 [signed_area]; [half] is [S::HALF] *)
  Definition signed_area (ge : R -> R -> bool) (half : R) (pts : list (R * R)) : res R :=
    let* terms := mapM (fun i =>
        let* p := at_ pts i in
        let* q := at_ pts (Nat.modulo (Nat.add i 1) (length pts)) in
        Ok (fst p * snd q - fst q * snd p)) (seq 0 (length pts)) in
    Ok (half * fst (neumaier ge terms)).

  (** tesselate/sweep/monotone/delaunay.rs:31-41 [determinant_3x3] *)
  Definition det3 (m : nat -> nat -> R) : R :=
    m 0 0 * (m 1 1 * m 2 2 - m 1 2 * m 2 1)
    - m 0 1 * (m 1 0 * m 2 2 - m 1 2 * m 2 0)
    + m 0 2 * (m 1 0 * m 2 1 - m 1 1 * m 2 0).
  (** delaunay.rs:9-29 [determinant_4x4]: column [i] is skipped *)
  Definition det4 (m : nat -> nat -> R) : R :=
    fold_left (fun det i =>
      let submatrix row col := m (S row) (if Nat.ltb col i then col else S col) in
      let sign := if Nat.even i then one else - one in
      det + sign * m 0 i * det3 submatrix) (seq 0 4) zero.
  (** delaunay.rs:45-69, the matrix of [circumcircle_contains] *)
  Definition circle_row (p : R * R) (col : nat) : R :=
    match col with 0 => fst p | 1 => snd p | 2 => fst p * fst p + snd p * snd p | _ => one end.
  Definition circle_det (p1 p2 p3 p : R * R) : R :=
    det4 (fun row => match row with 0 => circle_row p1 | 1 => circle_row p2 | 2 => circle_row p3 | _ => circle_row p end).

  (** Vectors of any dimension, by coordinates; all operations are componentwise. *)
  Definition vec := nat -> R.
  (** math/scalar.rs:121-123 and extensions/nalgebra/math/vec_n.rs:165-170 *)
  Definition lerp (a b : vec) (t : R) : vec := fun i => a i + (b i - a i) * t.
  Inductive curve := Linear | Quadratic (c : vec) | Cubic (c1 c2 : vec).
  (** mesh/edge/curved.rs:21-45 [point_at] *)
  Definition point_at (cv : curve) (start stop : vec) (t : R) : vec :=
    let two := one + one in let three := one + one + one in
    match cv with
    | Linear => lerp start stop t
    | Quadratic c =>
        let tt := t * t in let s := one - t in let ss := s * s in
        fun i => start i * ss + c i * two * s * t + stop i * tt
    | Cubic c1 c2 =>
        let tt := t * t in let ttt := tt * t in let s := one - t in let ss := s * s in let sss := ss * s in
        fun i => start i * sss + c1 i * three * ss * t + c2 i * three * s * tt + stop i * ttt
    end.
  (** curved.rs:71-83 [flatten_uniform]; [frac i n] is [from_usize(i) / from_usize(n)] *)
  Definition flatten_uniform (frac : nat -> nat -> R) (cv : curve) (start stop : vec) (n : nat) : res (list vec) :=
    assert (Nat.ltb 0 n) (Ok (map (fun i => point_at cv start stop (frac (Nat.add i 1) n)) (seq 0 (Nat.sub n 1)))).
  (** curved.rs:86-123 [flatten_casteljau]. [half t0 t1] is [(t0 + t1) / TWO], [h] is [HALF];
      [close a b] is [a.distance(b) <= error]. The recursion is bounded by [fuel] (the code may overflow the stack). *)
  Fixpoint recursive_flatten (fuel : nat) (halve : R -> R -> R) (h : R) (close : vec -> vec -> bool)
      (cv : curve) (start stop : vec) (t0 t1 : R) (lines : list vec) : res (list vec) :=
    match fuel with
    | O => Diverge
    | S fuel =>
      let p0 := point_at cv start stop t0 in
      let p1 := point_at cv start stop t1 in
      let tm := halve t0 t1 in
      let pm := point_at cv start stop tm in
      if close pm (lerp p0 p1 h) then Ok (lines ++ [p1]) else
      let* lines := recursive_flatten fuel halve h close cv start stop tm t1 lines in
      recursive_flatten fuel halve h close cv start stop t0 tm lines
    end.
  Definition flatten_casteljau (fuel : nat) (halve : R -> R -> R) (h : R) (close : vec -> vec -> bool)
      (cv : curve) (start stop : vec) : res (list vec) :=
    let* lines := recursive_flatten fuel halve h close cv start stop zero one [] in
    Ok (removelast (rev lines)).

  (** ** Transforms *)
  Definition rsum (n : nat) (f : nat -> R) : R := fold_right (fun i acc => f i + acc) zero (seq 0 n).
  Definition matrix := nat -> nat -> R.
  (** matrix product and matrix-vector product of nalgebra *)
  Definition mmul (n : nat) (a b : matrix) : matrix := fun i j => rsum n (fun k => a i k * b k j).
  Definition mvec (n : nat) (a : matrix) (v : vec) : vec := fun i => rsum n (fun k => a i k * v k).
  Definition ident : matrix := fun i j => if Nat.eqb i j then one else zero.
  Definition diag (v : vec) : matrix := fun i j => if Nat.eqb i j then v i else zero.

  Section Nd.
    Variable D : nat.
    (** extensions/nalgebra/math/transform_n.rs:8-11 [NdAffine] *)
    Record affine := mkA { a_mat : matrix; a_tr : vec }.
    (** transform_n.rs:22-27: the (D+1) x (D+1) identity with matrix and translation copied in *)
    Definition as_matrix (t : affine) : matrix := fun i j =>
      if Nat.ltb i D then (if Nat.ltb j D then a_mat t i j else if Nat.eqb j D then a_tr t i else ident i j) else ident i j.
    (** transform_n.rs:29-36; the assert compares the last row with zero *)
    Definition from_matrix (eqz : R -> bool) (m : matrix) : res affine :=
      assert (forallb (fun j => eqz (m D j)) (seq 0 D)) (Ok (mkA m (fun i => m i D))).
    (** transform_n.rs:48-52, 58-60 *)
    Definition a_identity : affine := mkA ident (fun _ => zero).
    (** transform_n.rs:62-64 *)
    Definition a_apply (t : affine) (v : vec) : vec := fun i => mvec D (a_mat t) v i + a_tr t i.
    (** transform_n.rs:66-68 *)
    Definition a_apply_vec (t : affine) (v : vec) : vec := mvec D (a_mat t) v.
    (** transform_n.rs:81-90 *)
    Definition a_from_scale (v : vec) : affine := mkA (diag v) (fun _ => zero).
    Definition a_from_translation (v : vec) : affine := mkA ident v.
    (** transform_n.rs:92-97 *)
    Definition a_with_scale (t : affine) (v : vec) : affine :=
      mkA (mmul D (a_mat t) (diag v)) (fun i => a_tr t i * v i).
    (** transform_n.rs:99-104 *)
    Definition a_with_translation (t : affine) (v : vec) : affine := mkA (a_mat t) (fun i => a_tr t i + v i).
    (** transform_n.rs:106-109 *)
    Definition a_chain (eqz : R -> bool) (t other : affine) : res affine :=
      from_matrix eqz (mmul (S D) (as_matrix other) (as_matrix t)).
  End Nd.

  (** extensions/bevy/math/mat5.rs: [Mat5]; [data[i * 5 + j]] is entry (i, j) *)
  Definition mat5 := matrix.
  (** mat5.rs:22-36, 178-181 [chain] *)
  Definition m5_chain (t other : mat5) : mat5 := mmul 5 t other.
  (** mat5.rs:50-63, 161-164 [apply]: the vector is extended by ONE *)
  Definition m5_apply (t : mat5) (v : vec) : vec :=
    fun i => rsum 5 (fun j => t i j * (if Nat.eqb j 4 then one else v j)).
  (** mat5.rs:166-176 *)
  Definition m5_apply_vec (t : mat5) (v : vec) : vec := fun i => rsum 4 (fun j => t i j * v j).
  (** mat5.rs:125-132, 134-141, 143-150, 152-159 *)
  Definition m5_from_translation (v : vec) : mat5 := fun i j => if Nat.eqb j 4 && Nat.ltb i 4 then v i else ident i j.
  Definition m5_from_scale (v : vec) : mat5 := fun i j => if Nat.eqb i j && Nat.ltb i 4 then v i else ident i j.
  Definition m5_with_scale (t : mat5) (v : vec) : mat5 := fun i j => if Nat.eqb i j && Nat.ltb i 4 then t i j * v i else t i j.
  Definition m5_with_translation (t : mat5) (v : vec) : mat5 := fun i j => if Nat.eqb j 4 && Nat.ltb i 4 then t i j + v i else t i j.

  (** ** Newell normal: math/vector3d.rs:155-175; [mhalf] is [S::from(-0.5)], coordinates 0, 1, 2.
      [circular_tuple_windows] pairs each element with the next one, the last with the first;
      [stable_sum] of vectors is [kahan_summation] (vector.rs:68-70), componentwise. *)
  Definition pairs {A} (l : list A) : list (A * A) :=
    match l with [] => [] | a :: r => combine l (r ++ [a]) end.
  Definition newell (mhalf : R) (l : list vec) : vec :=
    let term (c : nat) (ab : vec * vec) : R :=
      let a := fst ab in let b := snd ab in
      match c with
      | 0 => (a 2 + b 2) * (b 1 - a 1)
      | 1 => (a 0 + b 0) * (b 2 - a 2)
      | _ => (a 1 + b 1) * (b 0 - a 0)
      end in
    fun c => fst (kahan (map (term c) (pairs l))) * mhalf.
End Alg.
