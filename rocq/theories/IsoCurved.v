(** Model of the comparison of meshes by positions and control points (src/mesh/mesh/basics.rs), in exact arithmetic. *)
From Coq Require Import List Arith Bool QArith Qabs.
From Verif Require Import Base DVec Mesh MeshMore Topo Alg Transform IsoPos.
Set Implicit Arguments.
Unset Strict Implicit.
Local Open Scope nat_scope.

(** math/scalar.rs:163-165 and extensions/nalgebra/math/vec_n.rs:135-139 [is_about]: all coordinates *)
Definition v_is_about (D : nat) (eps : Q) (a b : vec Q) : bool :=
  forallb (fun i => negb (Qle_bool eps (Qabs (a i - b i)))) (seq 0 D).
(** mesh/edge/curved.rs:48-59 [is_about] *)
Definition k_is_about (D : nat) (eps : Q) (a b : curve Q) : bool :=
  match a, b with
  | Linear _, Linear _ => true
  | Quadratic c1, Quadratic c2 => v_is_about D eps c1 c2
  | Cubic c1 c2, Cubic c3 c4 => v_is_about D eps c1 c3 && v_is_about D eps c2 c4
  | _, _ => false
  end.
(** [|a, b| a.curve_type().is_about(&b.curve_type(), eps)], called with live edges only *)
Definition curve_at {VP FP} (D : nat) (eps : Q) (m m2 : mesh VP (curve Q) FP) (e f : nat) : bool :=
  match d_get (edges m) e, d_get (edges m2) f with
  | Ok a, Ok b => k_is_about D eps (e_pay a) (e_pay b)
  | _, _ => false
  end.
(** basics.rs:465-481 [is_trivially_isomorphic_pos_curved] *)
Definition is_trivially_isomorphic_pos_curved {FP} (D : nat) (eps : Q) (m m2 : mesh (pnu Q) (curve Q) FP) : res difference :=
  is_trivially_isomorphic_ex (near_at (fun p q => v_is_about D eps (u_pos p) (u_pos q)) m m2) (curve_at D eps m m2)
    (fun _ _ => true) m m2.
