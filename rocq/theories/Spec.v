(** Specification vocabulary: what it means for a half-edge mesh to be consistent. Independent of
    the builder operations: it only reads the stored fields. *)
From Coq Require Import List Arith Lia Bool.
From Verif Require Import Base DVec DVecFacts Mesh.
Import ListNotations.
Set Implicit Arguments.

(** The connectivity of a mesh as plain functions of ids. *)
Record graph (VP EP FP : Type) := mkG {
  lv : nat -> bool;            (* is the half-edge alive *)
  nx : nat -> nat; pv : nat -> nat; tw : nat -> nat; og : nat -> nat;
  fc : nat -> option nat;      (* face of the half-edge, None: boundary *)
  ep : nat -> option EP;
  lvv : nat -> bool; ve : nat -> option nat; vp : nat -> option VP;
  lvf : nat -> bool; fe : nat -> nat; fp : nat -> option (bool * FP) }.

Definition opt {A B} (o : option A) (d : B) (f : A -> B) : B :=
  match o with Some a => f a | None => d end.

(** Read the fields of a mesh. *)
Definition abs {VP EP FP} (m : mesh VP EP FP) : graph VP EP FP :=
  mkG (fun e => d_has (edges m) e)
      (fun e => opt (look (edges m) e) 0 (@e_next _))
      (fun e => opt (look (edges m) e) 0 (@e_prev _))
      (fun e => opt (look (edges m) e) 0 (@e_twin _))
      (fun e => opt (look (edges m) e) 0 (@e_origin _))
      (fun e => opt (look (edges m) e) None (@e_face _))
      (fun e => opt (look (edges m) e) None (fun x => Some (e_pay x)))
      (fun v => d_has (verts m) v)
      (fun v => opt (look (verts m) v) None (@v_edge _))
      (fun v => opt (look (verts m) v) None (fun x => Some (v_pay x)))
      (fun f => d_has (faces m) f)
      (fun f => opt (look (faces m) f) 0 (@f_edge _))
      (fun f => opt (look (faces m) f) None (fun x => Some (f_curved x, f_pay x))).

(** Rotating around the origin of a half-edge: opposite half-edge, then its successor. *)
Definition wheel {VP EP FP} (g : graph VP EP FP) (e : nat) : nat := nx g (tw g e).

(** Consistency of the connectivity. *)
Record WF {VP EP FP} (g : graph VP EP FP) : Prop := {
  (* twins are mutual and distinct *)
  wf_tw : forall e, lv g e = true -> lv g (tw g e) = true;
  wf_twtw : forall e, lv g e = true -> tw g (tw g e) = e;
  wf_twne : forall e, lv g e = true -> tw g e <> e;
  (* next and prev are mutually inverse *)
  wf_nx : forall e, lv g e = true -> lv g (nx g e) = true;
  wf_pv : forall e, lv g e = true -> lv g (pv g e) = true;
  wf_pvnx : forall e, lv g e = true -> pv g (nx g e) = e;
  wf_nxpv : forall e, lv g e = true -> nx g (pv g e) = e;
  (* the successor starts where the half-edge ends (= where its twin starts) *)
  wf_ognx : forall e, lv g e = true -> og g (nx g e) = og g (tw g e);
  (* a loop carries one face *)
  wf_fcnx : forall e, lv g e = true -> fc g (nx g e) = fc g e;
  (* origins are live, and every half-edge at a vertex is found by rotating around it *)
  wf_og : forall e, lv g e = true -> lvv g (og g e) = true;
  wf_wheel : forall e, lv g e = true ->
    exists e0, ve g (og g e) = Some e0 /\ reach (wheel g) e0 e;
  (* the representative of a vertex starts there *)
  wf_ve : forall v e, lvv g v = true -> ve g v = Some e -> lv g e = true /\ og g e = v;
  (* faces are live, and all half-edges of a face are on the loop of its representative *)
  wf_fc : forall e f, lv g e = true -> fc g e = Some f ->
    lvf g f = true /\ reach (nx g) (fe g f) e;
  wf_fe : forall f, lvf g f = true -> lv g (fe g f) = true /\ fc g (fe g f) = Some f
}.

(** A consistent mesh: consistent arenas (every dead slot is available for re-use, every live slot
    knows its own id) and consistent connectivity. *)
Definition wf {VP EP FP} (m : mesh VP EP FP) : Prop :=
  dv_ok (edges m) [] /\ dv_ok (verts m) [] /\ dv_ok (faces m) [] /\ WF (abs m).

(** The loop of a half-edge, as a list starting with it: consecutive elements are linked by the
    successor function, the last one leads back to the first, no repetition. *)
Fixpoint chain (f : nat -> nat) (x : nat) (l : list nat) : Prop :=
  match l with
  | [] => True
  | y :: t => f x = y /\ chain f y t
  end.
Definition is_cycle (f : nat -> nat) (l : list nat) : Prop :=
  match l with
  | [] => False
  | x :: t => NoDup l /\ chain f x t /\ f (last l x) = x
  end.
