(** Specification vocabulary for operations that refine or copy a mesh. Only speaks about the stored
    fields and about loops. *)
From Coq Require Import List Arith Bool.
From Verif Require Import Base DVec Mesh Spec MeshSpec BuildSpec.
Import ListNotations.
Set Implicit Arguments.
Unset Strict Implicit.

Section RefineSpec.
  Context {VP EP FP : Type}.
  Notation graph := (graph VP EP FP).
  Implicit Types (g : graph).

  (** Exactly one other half-edge leaves the origin of [e]. *)
  Definition two_edges g (e : nat) : Prop :=
    exists x, x <> e /\ lv g x = true /\ og g x = og g e /\
      forall y, lv g y = true -> og g y = og g e -> y = e \/ y = x.

  (** The edge of [e] was divided by the new vertices [vs]: the half-edges [es] and then [e] lead
      from the old origin of [e] through [vs] to its old target, their twins lead back; both sides
      stay on their loops and keep their faces. [ps] are the payloads of the half-edges [es], of
      their twins and of the vertices. *)
  Record edge_divided g g' (e : nat) (es vs : list nat) (ps : list (EP * EP * VP)) : Prop := {
    ed_e : added (lv g) (lv g') (es ++ map (tw g') es);
    ed_v : added (lvv g) (lvv g') vs;
    ed_f : forall f, keep_face g g' f;
    ed_twin : forall x, In x es -> tw g' (tw g' x) = x;
    ed_path : leads_through g' (es ++ [e]) (og g e :: vs ++ [target g e]);
    ed_pay1 : map (ep g') es = map (fun p => Some (fst (fst p))) ps;
    ed_pay2 : map (ep g') (map (tw g') es) = map (fun p => Some (snd (fst p))) ps;
    ed_pay : map (vp g') vs = map (fun p => Some (snd p)) ps;
    ed_face : forall x, In x es -> fc g' x = fc g e /\ fc g' (tw g' x) = fc g (tw g e);
    ed_old_e : forall x, lv g x = true ->
      tw g' x = tw g x /\ fc g' x = fc g x /\ ep g' x = ep g x /\ (x <> e -> og g' x = og g x);
    ed_old_v : forall v, lvv g v = true -> vp g' v = vp g v /\ (v <> og g e -> ve g' v = ve g v);
    ed_loop_e : forall s, loop g (e :: s) -> ~ In (tw g e) s -> loop g' (e :: s ++ es);
    ed_loop_t : forall s, loop g (tw g e :: s) -> ~ In e s ->
      loop g' (tw g e :: rev (map (tw g') es) ++ s);
    ed_loop_both : forall s1 s2, loop g (e :: s1 ++ tw g e :: s2) ->
      loop g' (e :: s1 ++ tw g e :: rev (map (tw g') es) ++ s2 ++ es);
    ed_loops : forall l, loop g l -> ~ In e l -> ~ In (tw g e) l -> loop g' l
  }.
End RefineSpec.

(** The live ids are renamed to [0 .. n-1] in increasing order. *)
Record renamed (live live' : nat -> bool) (r : nat -> nat) : Prop := {
  rn_live : forall x, live x = true -> live' (r x) = true;
  rn_mono : forall x y, live x = true -> live y = true -> x < y -> r x < r y;
  rn_onto : forall i, live' i = true -> exists x, live x = true /\ r x = i;
  rn_dense : exists n, forall i, live' i = true <-> i < n
}.

(** [g'] is [g] with ids renamed and payloads mapped; the curved flags are lost. *)
Record copy_of {VP EP FP VP' EP' FP' : Type} (fv : VP -> VP') (fh : EP -> EP') (ff : FP -> FP')
  (g : graph VP EP FP) (g' : graph VP' EP' FP') (rv re rf : nat -> nat) : Prop := {
  cp_v : renamed (lvv g) (lvv g') rv;
  cp_e : renamed (lv g) (lv g') re;
  cp_f : renamed (lvf g) (lvf g') rf;
  cp_nx : forall x, lv g x = true -> nx g' (re x) = re (nx g x);
  cp_pv : forall x, lv g x = true -> pv g' (re x) = re (pv g x);
  cp_tw : forall x, lv g x = true -> tw g' (re x) = re (tw g x);
  cp_og : forall x, lv g x = true -> og g' (re x) = rv (og g x);
  cp_fc : forall x, lv g x = true -> fc g' (re x) = option_map rf (fc g x);
  cp_ep : forall x, lv g x = true -> ep g' (re x) = option_map fh (ep g x);
  cp_ve : forall v, lvv g v = true -> ve g' (rv v) = option_map re (ve g v);
  cp_vp : forall v, lvv g v = true -> vp g' (rv v) = option_map fv (vp g v);
  cp_fe : forall f, lvf g f = true -> fe g' (rf f) = re (fe g f);
  cp_fp : forall f, lvf g f = true -> fp g' (rf f) = option_map (fun p => (false, ff (snd p))) (fp g f)
}.

(** Every vertex has an edge, and no half-edge is its own successor. *)
Definition importable {VP EP FP : Type} (g : graph VP EP FP) : Prop :=
  (forall v, lvv g v = true -> ve g v <> None) /\ (forall e, lv g e = true -> nx g e <> e).
