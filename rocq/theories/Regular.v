(** Regular polygons and solids with their positions, over the real numbers: src/primitives/{polygon,
    prismatoid,sphere}.rs. The vertex payload is the position. [std::f32::consts::PI] and [f32] angles are
    exact. The planarity assertion of [Face3d::normal] in debug builds is left out: all vertices of the only
    face it is asked about (the base of a prism) have the same height. *)
From Coq Require Import List Arith Bool Reals.
From Verif Require Import Base DVec Mesh MeshMore Alg Solid Sphere.
Import ListNotations.
Set Implicit Arguments.
Unset Strict Implicit.
Local Open Scope R_scope.

(** src/primitives/polygon.rs:7-9 *)
Definition regular_polygon_sidelength (r : R) (n : nat) : R := 2 * r * sin (PI / INR n).
(** src/primitives/polygon.rs:12-14 *)
Definition regular_polygon_area (r : R) (n : nat) : R := / 2 * INR n * r * r * sin (2 * PI / INR n).
(** src/primitives/polygon.rs:53-66: the [i]-th vertex of [insert_regular_star] *)
Definition star_point (inner outer : R) (n i : nat) : vec3 :=
  let r := if Nat.odd i then outer else inner in
  let a := 2 * PI / INR n * INR i in
  (r * sin a, r * cos a, 0).
(** src/primitives/prismatoid.rs:32-35: the [i]-th vertex of [circle_iter] *)
Definition circle_at (r : R) (n : nat) (shift y : R) (i : nat) : vec3 :=
  let v := PI * (INR (2 * i) + shift) / INR n in (r * cos v, y, - r * sin v).
(** src/primitives/sphere.rs:42-54 [make_vp] *)
Definition uv_at (radius : R) (n m i j : nat) : vec3 :=
  let phi := PI * INR i / INR n in
  let theta := - PI * INR (2 * j + 4) / INR m in
  (radius * sin phi * cos theta, radius * cos phi, radius * sin phi * sin theta).
(** src/primitives/sphere.rs:17-19 *)
Definition icosahedron_a2r (a : R) : R := sqrt (10 + 2 * sqrt 5) * a / 4.

Definition coords (p : vec3) : nat -> R :=
  let '(x, y, z) := p in fun i => match i with O => x | S O => y | _ => z end.

Section Regular.
  Context {EP FP : Type}.
  Notation mesh := (mesh vec3 EP FP).
  Implicit Types (c : cfg) (m : mesh).
  Variable (dE : EP) (dF : FP).

  (** src/mesh/face/face3d.rs:96-106 *)
  Definition normal3 m (f : nat) : res vec3 :=
    let* vs := face_vertices m f in
    let* ps := mapM (fun v => let* x := m_vertex m v in Ok (v_pay x)) vs in
    let n := newell 0 Rplus Rmult Rminus (-1 / 2) (map coords ps) in
    Ok (n 0%nat, n 1%nat, n 2%nat).
  (** src/primitives/prismatoid.rs:57-58: the translation by [-normal * height] *)
  Definition prism_shift (height : R) m (f : nat) : res (vec3 -> vec3) :=
    let* n := normal3 m f in Ok (fun p => vadd p (vmul (vmul (normalize n) (-1)) height)).

  (** src/primitives/polygon.rs:44-67 *)
  Definition insert_regular_star c m (inner outer : R) (n : nat) : res (mesh * nat) :=
    insert_polygon dE dF c m (map (star_point inner outer n) (seq 0 n)).
  (** src/primitives/prismatoid.rs:160-194 *)
  Definition r_cuboid c (size : vec3) : res mesh :=
    let '(x, y, z) := vmul size (/ 2) in
    cuboid dE dF c (- x, - y, - z) (x, - y, - z) (x, y, - z) (- x, y, - z)
      (- x, - y, z) (x, - y, z) (x, y, z) (- x, y, z).
  (** src/primitives/prismatoid.rs:197-202 *)
  Definition r_pyramid c (radius height : R) (n : nat) : res mesh :=
    pyramid dE dF c (circle_iter (circle_at radius n 0 0) n) (0, height, 0).
  (** src/primitives/prismatoid.rs:243-250 *)
  Definition r_frustum c (r1 r2 h : R) (n : nat) (smooth : bool) : res mesh :=
    regular_frustum dE dF c (circle_at r1 n 0 0) (circle_at r2 n 0 h) n smooth.
  (** src/primitives/prismatoid.rs:257-264 *)
  Definition r_prism c (r h : R) (n : nat) : res mesh :=
    prism dE dF c (circle_iter (circle_at r n 0 0) n) (prism_shift h).
  Definition uniform_prism c (r : R) (n : nat) : res mesh := r_prism c r (regular_polygon_sidelength r n) n.
  (** src/primitives/prismatoid.rs:267-283 *)
  Definition r_antiprism c (r h : R) (n : nat) : res mesh :=
    antiprism_iter dE dF c (circle_iter (circle_at r n 0 0) n) (circle_iter (circle_at r n 1 h) n).
  Definition uniform_antiprism c (r : R) (n : nat) : res mesh :=
    r_antiprism c r (regular_polygon_sidelength r n * sqrt 3 * / 2) n.
  (** src/primitives/sphere.rs:33-69 *)
  Definition r_uv_sphere c (radius : R) (n m : nat) : res mesh := uv_sphere dE dF c (uv_at radius n m) n m.
End Regular.
