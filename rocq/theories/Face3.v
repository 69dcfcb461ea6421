(** Face predicates: src/mesh/face/face3d.rs, over the rationals. The points of a face are those of
    its vertices in order ([face_points] of Transform.v). *)
From Coq Require Import List Bool QArith Qabs.
From Verif Require Import Base Mesh Alg Transform Geo GeoSpec GeoMath.
Import ListNotations.
Set Implicit Arguments.
Unset Strict Implicit.
Local Open Scope Q_scope.

Notation vec3 := (nat -> Q).
Definition v_sub (a b : vec3) : vec3 := fun i => a i - b i.
(** extensions/nalgebra/math/vec3.rs [cross], vec_n.rs [dot] *)
Definition v_cross (a b : vec3) : vec3 := fun i =>
  match i with
  | O => a 1%nat * b 2%nat - a 2%nat * b 1%nat
  | S O => a 2%nat * b 0%nat - a 0%nat * b 2%nat
  | _ => a 0%nat * b 1%nat - a 1%nat * b 0%nat
  end.
Definition v_dot (a b : vec3) : Q := a 0%nat * b 0%nat + a 1%nat * b 1%nat + a 2%nat * b 2%nat.

(** itertools [circular_tuple_windows] of size 3; of size 2 it is [pairs] of Alg.v *)
Definition rot {A} (l : list A) : list A := match l with [] => [] | a :: r => r ++ [a] end.
Definition triples {A} (l : list A) : list (A * A * A) := combine (combine l (rot l)) (rot (rot l)).
(** itertools [all_equal] *)
Definition all_equal (l : list bool) : bool :=
  match l with [] => true | a :: r => forallb (Bool.eqb a) r end.
(** itertools [tuple_combinations] of size 2 *)
Fixpoint combinations {A} (l : list A) : list (A * A) :=
  match l with [] => [] | a :: r => map (pair a) r ++ combinations r end.

(** face3d.rs:14-24 [vertices_crossed] *)
Definition vertices_crossed (l : list vec3) : list vec3 :=
  map (fun w => match w with (a, b, c) => v_cross (v_sub b a) (v_sub c a) end) (triples l).
(** face3d.rs:27-34 [is_convex]; [pos] is [is_positive], whose answer at zero depends on the sign of zero *)
Definition is_convex (pos : Q -> bool) (l : list vec3) : bool :=
  all_equal (map (fun w => pos (v_dot (fst w) (snd w))) (pairs (vertices_crossed l))).
(** face3d.rs:37-48 [is_planar]: [three[1]] and [three[2]] panic if there are fewer than three vertices *)
Definition is_planar (eps : Q) (l : list vec3) : res bool :=
  match l with
  | p0 :: p1 :: p2 :: r =>
      let n := v_cross (v_sub p1 p0) (v_sub p2 p0) in
      Ok (forallb (fun v => Qlt_bool (Qabs (v_dot (v_sub v p0) n)) eps) (p2 :: r))
  | _ => Panic
  end.
(** face3d.rs:57-69 [has_self_intersections], on the points rotated into the plane ([vertices_2d]) *)
Definition has_self_intersections (eps : Q) (l : list pt) : bool :=
  existsb (fun w => match w with ((a1, a2), (b1, b2)) =>
    match intersect_line a1 a2 b1 b2 eps (- eps) with Some _ => true | None => false end end)
    (combinations (pairs l)).
(** face/basics.rs:55-57 [has_holes]; face3d.rs:73-75 [is_simple] *)
Definition has_holes : bool := false.
Definition is_simple (eps : Q) (l : list pt) : bool := negb has_holes && negb (has_self_intersections eps l).
(** face3d.rs:78-84 [normal_naive], math/vector3d.rs:62-64 [normal]; [dbg] are the debug assertions *)
Definition normal_naive (dbg : bool) (pos : Q -> bool) (eps : Q) (l : list vec3) : res vec3 :=
  let* pl := (if dbg then is_planar eps l else Ok true) in
  assert (pl && (negb dbg || is_convex pos l)) (
  match l with
  | p0 :: p1 :: p2 :: _ => Ok (v_cross (v_sub p1 p0) (v_sub p2 p0))
  | _ => Panic
  end).

(** the same for a face of a mesh *)
Definition face_is_convex {FP} (pos : Q -> bool) (m : mesh (pnu Q) (curve Q) FP) (f : nat) : res bool :=
  let* l := face_points m f in Ok (is_convex pos l).
Definition face_is_planar {FP} (eps : Q) (m : mesh (pnu Q) (curve Q) FP) (f : nat) : res bool :=
  let* l := face_points m f in is_planar eps l.
Definition face_normal_naive {FP} dbg (pos : Q -> bool) (eps : Q) (m : mesh (pnu Q) (curve Q) FP) (f : nat) : res vec3 :=
  let* l := face_points m f in normal_naive dbg pos eps l.
