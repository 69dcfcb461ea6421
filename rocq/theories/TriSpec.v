(** Specification of triangulations of a polygon, independent of any algorithm. *)
From Coq Require Import List Arith ZArith Permutation.
Import ListNotations.
Set Implicit Arguments.
Unset Strict Implicit.

Section TriSpec.
  Variable V : Type.

  (** [tri a l b T]: the oriented triangles [T] triangulate the polygon [a :: l ++ [b]] without new
      vertices: the edge from [b] back to [a] lies on exactly one triangle [(a, k, b)], whose apex
      [k] splits the polygon into two smaller polygons. An edge is a polygon without triangles.
      Triangles are taken up to rotation and their order does not matter. *)
  Inductive tri : V -> list V -> V -> list (V * V * V) -> Prop :=
  | tri_edge a b : tri a [] b []
  | tri_node a l1 k l2 b T1 T2 :
      tri a l1 k T1 -> tri k l2 b T2 -> tri a (l1 ++ k :: l2) b ((a, k, b) :: T1 ++ T2)
  | tri_perm a l b T T' : Permutation T T' -> tri a l b T -> tri a l b T'
  | tri_turn a l b x y z T : tri a l b ((x, y, z) :: T) -> tri a l b ((y, z, x) :: T).

  (** [T] triangulates the polygon given by the cyclic list [p]. *)
  Definition triangulates (p : list V) (T : list (V * V * V)) : Prop :=
    exists a l b, p = a :: l ++ [b] /\ tri a l b T.

  (** directed edges of a closed polygon and of a list of triangles *)
  Definition poly_edges (p : list V) : list (V * V) :=
    match p with [] => [] | a :: r => combine p (r ++ [a]) end.
  Definition tri_edges (t : V * V * V) : list (V * V) :=
    match t with (a, b, c) => [(a, b); (b, c); (c, a)] end.
  Definition flip_tri (t : V * V * V) : V * V * V :=
    match t with (a, b, c) => (c, b, a) end.

  (** Sum of a weight over directed edges, in an abelian group. *)
  Section Sum.
    Variables (A : Type) (zero : A) (add : A -> A -> A).
    Fixpoint esum (w : V -> V -> A) (es : list (V * V)) : A :=
      match es with [] => zero | (x, y) :: r => add (w x y) (esum w r) end.
  End Sum.

End TriSpec.

(** How often the directed edge [a -> b] occurs, minus how often [b -> a] does. *)
Definition cnt (es : list (nat * nat)) (a b : nat) : Z :=
  Z.of_nat (length (filter (fun e => (fst e =? a) && (snd e =? b))%bool es)).
Definition net (es : list (nat * nat)) (a b : nat) : Z := (cnt es a b - cnt es b a)%Z.
(** The triangles cover the polygon as oriented chains: inner edges cancel, boundary edges remain. *)
Definition covers (p : list nat) (T : list (nat * nat * nat)) : Prop :=
  forall a b, net (flat_map (@tri_edges nat) T) a b = net (poly_edges p) a b.
