(** Simple polygons with rational coordinates. *)
From Coq Require Import List Arith QArith.
From Verif Require Import GeoSpec.
Import ListNotations.
Local Open Scope Q_scope.

Definition same_pt (p q : pt) : Prop := fst p == fst q /\ snd p == snd q.
(** [p] lies on the closed segment from [a] to [b] *)
Definition on_segment (a b p : pt) : Prop :=
  exists t, 0 <= t /\ t <= 1 /\ same_pt p (fst a + t * (fst b - fst a), snd a + t * (snd b - snd a)).
(** Two different sides have at most a common corner. *)
Definition simple_polygon (ps : list pt) : Prop :=
  let n := length ps in let at' i := nth (i mod n) ps (0, 0) in
  (3 <= n)%nat /\
  forall i j p, (i < n)%nat -> (j < n)%nat -> i <> j ->
    on_segment (at' i) (at' (S i)) p -> on_segment (at' j) (at' (S j)) p ->
    (j = (S i) mod n /\ same_pt p (at' j)) \/ (i = (S j) mod n /\ same_pt p (at' i)).
(** twice the signed area *)
Definition area2 (ps : list pt) : Q :=
  let n := length ps in let at' i := nth (i mod n) ps (0, 0) in
  fold_right Qplus 0 (map (fun i => fst (at' i) * snd (at' (S i)) - fst (at' (S i)) * snd (at' i)) (seq 0 n)).
