(** Model of [dodecahedron], src/primitives/sphere.rs:71-126. *)
From Coq Require Import List Arith Reals.
From Verif Require Import Base DVec Mesh Solid Sphere.
Import ListNotations.
Set Implicit Arguments.
Unset Strict Implicit.

Section Dodeca.
  Context {VP EP FP : Type}.
  Notation mesh := (mesh VP EP FP).
  Implicit Types (c : cfg) (m : mesh).
  Variable (dE : EP) (dF : FP).

  (** src/primitives/sphere.rs:81-125 with the payloads and the ends [v], [w] of the start edge as
      parameters; the code has [v = 1] and [w = 0]. [Make2dShape::polygon] is [insert_polygon] on an
      empty mesh (src/primitives/polygon.rs). *)
  Definition dodeca_mesh c (v w : nat) (top mid bottom : list VP) : res mesh :=
    let* (m0, _) := insert_polygon dE dF c empty_mesh top in
    let* o := shared_edge c m0 v w in
    let* start := unwrap o in
    let* (m1, start_middle) := loft_polygon_back dE dF c m0 start 3 2 mid in
    let* e := next_id m1 start_middle in
    let* (m2, start_bottom) := loft_polygon_back dE dF c m1 e 2 3 bottom in
    let* (m3, _) := close_hole c m2 start_bottom dF false in
    Ok m3.
End Dodeca.

Section DodecaPos.
  Context {EP FP : Type}.
  Variable (dE : EP) (dF : FP).
  Local Open Scope R_scope.
  (** The positions, src/primitives/sphere.rs:74-88, 94-108, 110-121; [PHI] is exact. *)
  Definition dodeca_top (radius : R) : list vec3 :=
    let phi := radius * golden in let iphi := radius / golden in let one := radius in
    [(one, one, one); (0, phi, iphi); (- one, one, one); (- iphi, 0, phi); (iphi, 0, phi)].
  Definition dodeca_mid (radius : R) : list vec3 :=
    let phi := radius * golden in let iphi := radius / golden in let one := radius in
    [(phi, iphi, 0); (one, one, - one); (0, phi, - iphi); (- one, one, - one); (- phi, iphi, 0);
     (- phi, - iphi, 0); (- one, - one, one); (0, - phi, iphi); (one, - one, one); (phi, - iphi, 0)].
  Definition dodeca_bottom (radius : R) : list vec3 :=
    let phi := radius * golden in let iphi := radius / golden in let one := radius in
    [(one, - one, - one); (iphi, 0, - phi); (- iphi, 0, - phi); (- one, - one, - one); (0, - phi, - iphi)].
  (** src/primitives/sphere.rs:71-126 *)
  Definition dodecahedron c (radius : R) : res (mesh vec3 EP FP) :=
    dodeca_mesh dE dF c 1 0 (dodeca_top radius) (dodeca_mid radius) (dodeca_bottom radius).
End DodecaPos.
