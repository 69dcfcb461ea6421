(** Model of the 4d transformation of the Bevy extension (src/extensions/bevy/math/mat5.rs) over a commutative ring.
    [from_rotation] and [from_rotation_arc] are unfinished ([todo!]). *)
From Coq Require Import List Arith.
From Verif Require Import Base Alg.
Import ListNotations.
Set Implicit Arguments.
Unset Strict Implicit.

Section Mat5.
  Variables (R : Type) (zero one : R) (add mul : R -> R -> R).
  Infix "+" := add. Infix "*" := mul.
  Notation vec := (vec R).
  Local Notation idx i j := (Nat.add (Nat.mul i 5) j).

  (** mat5.rs:6-8 [Mat5]: an array of 25 numbers, here by index; every index in the code is below 25 *)
  Definition mat5 := nat -> R.
  Definition put (m : mat5) (p : nat) (x : R) : mat5 := fun q => if q =? p then x else m q.
  (** mat5.rs:10-20 [zero] *)
  Definition m5_zero : mat5 := fun _ => zero.
  (** mat5.rs:22-36 [Mul]: three nested loops *)
  Definition m5_mul (a b : mat5) : mat5 :=
    fold_left (fun m i => fold_left (fun m j => fold_left (fun m k =>
      put m (idx i j) (m (idx i j) + a (idx i k) * b (idx k j))) (seq 0 5) m) (seq 0 5) m) (seq 0 5) m5_zero.
  (** mat5.rs:38-48 [Add] *)
  Definition m5_add (a b : mat5) : mat5 := fold_left (fun m i => put m i (a i + b i)) (seq 0 25) m5_zero.
  (** mat5.rs:50-64 [Mul<Vec4>] *)
  Definition m5_vec (a : mat5) (v : vec) : vec :=
    let rhs := fun j => if j =? 4 then one else v j in
    fold_left (fun r i => fold_left (fun r j => put r i (r i + a (idx i j) * rhs j)) (seq 0 5) r) (seq 0 5) m5_zero.
  (** mat5.rs:66-97 [IDENTITY] *)
  Definition m5_identity : mat5 := fun p => nth p
    [one; zero; zero; zero; zero;  zero; one; zero; zero; zero;  zero; zero; one; zero; zero;
     zero; zero; zero; one; zero;  zero; zero; zero; zero; one] zero.

  (** mat5.rs:127-134 *)
  Definition m5_from_translation (v : vec) : mat5 := put (put (put (put m5_identity 4 (v 0)) 9 (v 1)) 14 (v 2)) 19 (v 3).
  (** mat5.rs:136-143 *)
  Definition m5_from_scale (v : vec) : mat5 := put (put (put (put m5_identity 0 (v 0)) 6 (v 1)) 12 (v 2)) 18 (v 3).
  (** mat5.rs:145-152 *)
  Definition m5_with_scale (t : mat5) (v : vec) : mat5 :=
    put (put (put (put t 0 (t 0 * v 0)) 6 (t 6 * v 1)) 12 (t 12 * v 2)) 18 (t 18 * v 3).
  (** mat5.rs:154-161 *)
  Definition m5_with_translation (t : mat5) (v : vec) : mat5 :=
    put (put (put (put t 4 (t 4 + v 0)) 9 (t 9 + v 1)) 14 (t 14 + v 2)) 19 (t 19 + v 3).
  (** mat5.rs:163-166 *)
  Definition m5_apply (t : mat5) (v : vec) : vec := m5_vec t v.
  (** mat5.rs:168-178 *)
  Definition m5_apply_vec (t : mat5) (v : vec) : vec :=
    fold_left (fun r i => fold_left (fun r j => put r i (r i + t (idx i j) * v j)) (seq 0 4) r) (seq 0 4) m5_zero.
  (** mat5.rs:180-183 *)
  Definition m5_chain (t o : mat5) : mat5 := m5_mul t o.
End Mat5.
