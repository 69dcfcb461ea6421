(** Specification of hems: rings of polygons around a boundary loop, every polygon standing on
    several half-edges of the loop and reaching several half-edges of the new one. Only speaks about
    the stored fields and about loops. *)
From Coq Require Import List Arith Bool.
From Verif Require Import Base DVec Mesh Spec MeshSpec BuildSpec.
Import ListNotations.
Set Implicit Arguments.
Unset Strict Implicit.

Section HemSpec.
  Context {VP EP FP : Type}.
  Notation graph := (graph VP EP FP).
  Implicit Types (g : graph).

  (** A strip of polygons over the blocks [Bs] of consecutive half-edges: the block [B] has the
      upright [p] from its first origin to the first origin of the piece [T] of the rim, the next
      upright is [q], and the face [f] runs along [B], up [q], back along [T] and down [p]. *)
  Fixpoint hem_band g (y : FP) (Bs : list (list nat)) (ps : list nat) (Ts : list (list nat)) (fs : list nat) : Prop :=
    match Bs, ps, Ts, fs with
    | [], [_], [], [] => True
    | B :: Bs, p :: (q :: _) as r, T :: Ts, f :: fs =>
        leads g p (og g (hd 0 B)) (og g (hd 0 T)) /\
        face_is g f (B ++ q :: rev (map (tw g) T) ++ [tw g p]) y false /\ hem_band g y Bs r Ts fs
    | _, _, _, _ => False
    end.

  (** The boundary loop [L] is continued by a ring of polygons [fs], each with [n] corners on the new
      boundary loop and [k] on the old one; the new loop runs through the new vertices [vs] with the
      payloads [xs]. *)
  Record hem_built g g' (n k : nat) (L : list nat) (xs : list VP) (y : FP)
    (Bs : list (list nat)) (ps : list nat) (Ts : list (list nat)) (vs fs : list nat) : Prop := {
    hb_L : concat Bs = L;
    hb_B : forall B, In B Bs -> S (length B) = k;
    hb_T : forall T, In T Ts -> S (length T) = n;
    hb_grown : grown g g' L ((ps ++ concat Ts) ++ map (tw g') (ps ++ concat Ts)) vs fs;
    hb_band : hem_band g' y Bs (ps ++ firstn 1 ps) Ts fs;
    hb_rim : leads_through g' (concat Ts) (vs ++ firstn 1 vs);
    hb_hole : hole g' (concat Ts);
    hb_pay : map (vp g') vs = map Some xs
  }.

  (** A hem that ends early: the half-edges [pre] of [L] have no polygon yet, [cs] are the half-edges
      already made for the next one. The uprights are [sp ++ [s0]], the new vertices [ws ++ [w0]]. *)
  Record hem_open g g' (n k : nat) (L : list nat) (xs : list VP) (y : FP) (pre : list nat)
    (Bs : list (list nat)) (s0 : nat) (sp cs : list nat) (Ts : list (list nat)) (w0 : nat) (ws fs : list nat) : Prop := {
    ho_L : L = pre ++ concat Bs;
    ho_B : forall B, In B Bs -> S (length B) = k;
    ho_T : forall T, In T Ts -> S (length T) = n;
    ho_grown : grown g g' L (((s0 :: sp) ++ rev (map (tw g') cs) ++ concat Ts) ++
                 map (tw g') ((s0 :: sp) ++ rev (map (tw g') cs) ++ concat Ts)) (w0 :: ws) fs;
    ho_band : hem_band g' y Bs (sp ++ [s0]) Ts fs;
    ho_rim : leads_through g' (rev (map (tw g') cs) ++ concat Ts) (ws ++ [w0]);
    ho_s0 : leads g' s0 (og g (hd 0 L)) w0;
    ho_hole : hole g' (hd s0 sp :: cs ++ (rev (map (tw g') cs) ++ concat Ts) ++ tw g' s0 :: pre);
    ho_pay : map (vp g') (w0 :: ws) = map Some xs
  }.
End HemSpec.
