(** What the search tree of the sweep line is meant to do. *)
From Coq Require Import List QArith Sorting.Sorted.
From Verif Require Import Base Monotone GeoSpec Geo Sweep SweepTree.
Set Implicit Arguments.
Unset Strict Implicit.
Local Open Scope Q_scope.

(** The edge reaches the height [y]. *)
Definition spans (s : sorter) (y : Q) : Prop := snd (so_to s) <= y /\ y <= snd (so_from s).
(** The point lies on the edge. *)
Definition on_edge (s : sorter) (x y : Q) : Prop := exists t, 0 <= t /\ t <= 1 /\
  x == (1 - t) * fst (so_from s) + t * fst (so_to s) /\ y == (1 - t) * snd (so_from s) + t * snd (so_to s).
(** The edges have no point in common. *)
Definition apart (a b : sorter) : Prop := forall x y, on_edge a x y -> on_edge b x y -> False.
(** From right to left at the height [y]. *)
Definition right_of (y : Q) (a b : sorter) : Prop := exists xa xb, on_edge a xa y /\ on_edge b xb y /\ xb < xa.
Definition ordered (y : Q) (t : list sorter) : Prop := (forall s, In s t -> spans s y) /\ NoDup t /\ StronglySorted (right_of y) t.
Definition pairwise (t : list sorter) : Prop := forall a b, In a t -> In b t -> a <> b -> apart a b.

Section Line.
  Variable vs : list (pt * nat).
  Variable M : mono.
  Implicit Types (left : list (option (interval M))).
  (** the interval [v] reaches from [xl] to [xr] at the height [y] *)
  Definition reaches (v : interval M) (y xl xr : Q) : Prop := x_at_y vs (i_left v) y = Ok xl /\ x_at_y vs (i_right v) y = Ok xr.
  (** the intervals of the status are stored at the end of their left edge, and are disjoint on the sweep line *)
  Definition disjoint_at left (y : Q) : Prop :=
    (forall k v, nth_error left k = Some (Some v) -> k = snd (i_left v) /\ exists xl xr, reaches v y xl xr /\ xl <= xr) /\
    (forall k v k' v' xl xr xl' xr', nth_error left k = Some (Some v) -> nth_error left k' = Some (Some v') -> k <> k' ->
       reaches v y xl xr -> reaches v' y xl' xr' -> xr < xl' \/ xr' < xl).
  (** the tree has the left edges of the intervals of the status *)
  Definition tree_of left (t : list sorter) : Prop :=
    (forall k v, nth_error left k = Some (Some v) -> exists s, In s t /\ from_interval vs v = Ok s) /\
    (forall s, In s t -> exists k v, nth_error left k = Some (Some v) /\ from_interval vs v = Ok s).
  (** the status and its tree, if there is one, agree, at the height [y] *)
  Definition in_step (y : Q) (x : status M * option (list sorter)) : Prop :=
    (forall k v, nth_error (s_left (fst x)) k = Some (Some v) -> k = snd (i_left v)) /\
    (forall t, snd x = Some t -> tree_of (s_left (fst x)) t /\ pairwise t /\ ordered y t).
End Line.
