(** The interpolators only read the payloads of the three vertices. *)
From Coq Require Import List Arith.
From Verif Require Import Base DVec DVecFacts Mesh Spec SubdivSpec Interpolate.
Import ListNotations.
Set Implicit Arguments.
Unset Strict Implicit.

Section InterpolateFacts.
  Context {VP EP FP V K : Type}.
  Variables (pos : VP -> V) (from_pos : V -> VP) (of_nat : nat -> K).
  Variables (vadd vsub : V -> V -> V) (vmul vdiv : V -> K -> V) (normalize : V -> V).

  Lemma position_ok (m : mesh VP EP FP) v y : vp (abs m) v = Some y -> position pos m v = Ok (pos y).
  Proof.
    unfold position, m_vertex, abs, d_get, look. cbn [vp]. destruct (nth_error (slots (verts m)) v) as [[[k x]|]|]; try discriminate.
    cbn. intros [= <-]. reflexivity.
  Qed.

  Lemma linear_reads (P : VP -> VP -> VP -> Prop) phi :
    (forall i j k p q r, In [i; j; k] halfway -> P p q r -> phi [(i, p); (j, q); (k, r)] =
       from_pos (vdiv (vadd (vadd (vmul (pos p) (of_nat i)) (vmul (pos q) (of_nat j))) (vmul (pos r) (of_nat k))) (of_nat (i + j + k)))) ->
    reads (EP := EP) (FP := FP) P phi (linear_call pos from_pos of_nat vadd vmul vdiv).
  Proof.
    intros H m i j k u v w p q r I Q A B C.
    unfold linear_call. rewrite (position_ok A), (position_ok B), (position_ok C). cbn [bind]. rewrite H; auto.
  Qed.

  Variable slerp : V -> V -> res V.
  (** The two positions with weight one, in the order in which they are used. *)
  Definition ends (ps : list (nat * VP)) : option (VP * VP) :=
    match ps with
    | [(1, p); (1, q); (0, r)] => Some (p, q)
    | [(0, p); (1, q); (1, r)] => Some (q, r)
    | [(1, p); (0, q); (1, r)] => Some (r, p)
    | _ => None
    end.
  Lemma slerp_reads (P : VP -> VP -> VP -> Prop) center radius phi :
    (forall i j k a b d p q, P a b d -> ends [(i, a); (j, b); (k, d)] = Some (p, q) ->
       exists u, slerp (normalize (vsub (pos p) center)) (normalize (vsub (pos q) center)) = Ok u /\
         phi [(i, a); (j, b); (k, d)] = from_pos (vadd center (vmul (normalize u) radius))) ->
    reads (EP := EP) (FP := FP) P phi (slerp_call pos from_pos vadd vsub vmul normalize slerp center radius).
  Proof.
    intros H m i j k u v w p q r I Q A B C.
    unfold slerp_call. rewrite (position_ok A), (position_ok B), (position_ok C). cbn [bind].
    specialize (H i j k p q r).
    cbn in I. destruct I as [[= <- <- <-] | [[= <- <- <-] | [[= <- <- <-] | []]]]; cbn -[slerp_call] in *;
      destruct (H _ _ Q eq_refl) as (x & -> & ->); reflexivity.
  Qed.
End InterpolateFacts.
