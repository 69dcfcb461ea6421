(** The intended dodecahedron as an indexed face set. *)
From Coq Require Import List Arith Reals.
From Verif Require Import Sphere Dodeca.
Import ListNotations.

(** Corners of the faces, in the order in which the faces are made. *)
Definition dodeca_polys : list (list nat) :=
  [[1; 0; 4; 3; 2]; [5; 6; 7; 0; 1]; [7; 8; 9; 4; 0]; [9; 10; 11; 3; 4]; [11; 12; 13; 2; 3]; [13; 14; 5; 1; 2];
   [14; 15; 16; 6; 5]; [6; 16; 17; 8; 7]; [8; 17; 18; 10; 9]; [10; 18; 19; 12; 11]; [12; 19; 15; 14; 13]; [16; 15; 19; 18; 17]].

Local Open Scope R_scope.
(** The five points of [dodeca_top] in the other direction, beginning with the second: so the rings fit. *)
Definition dodeca_top_turned (r : R) : list vec3 :=
  let phi := r * golden in let iphi := r / golden in
  [(0, phi, iphi); (r, r, r); (iphi, 0, phi); (- iphi, 0, phi); (- r, r, r)].
Definition dodeca_points (r : R) : list vec3 := dodeca_top_turned r ++ dodeca_mid r ++ dodeca_bottom r.
