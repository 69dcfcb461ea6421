(** A list of all edges of a mesh. *)
From Coq Require Import List Arith Bool Sorting.Sorted.
From Verif Require Import Base Mesh Spec Winged.
Import ListNotations.
Set Implicit Arguments.
Unset Strict Implicit.

Section WingedSpec.
  Context {VP EP FP : Type}.
  (** [w] describes the edge of the half-edge [w_id w]: both half-edges, their ends, neighbours and faces. *)
  Definition describes (g : graph VP EP FP) (w : winged) : Prop :=
    let e := w_id w in let t := tw g e in
    lv g e = true /\ w_twin w = t /\ w_origin w = og g e /\ w_target w = og g t /\ w_prev w = pv g e /\ w_face w = fc g e /\ w_next w = nx g e /\
    w_tprev w = pv g t /\ w_tface w = fc g t /\ w_tnext w = nx g t.
  (** [l] lists every edge once, by the smaller of its half-edges, in the order of these. *)
  Definition lists_all_edges (g : graph VP EP FP) (l : list winged) : Prop :=
    (forall w, In w l -> describes g w /\ w_id w < w_twin w) /\
    (forall e, lv g e = true -> exists w, In w l /\ (w_id w = e \/ w_twin w = e)) /\
    StronglySorted (fun a b => w_id a < w_id b) l.
End WingedSpec.
