(** Model of the index buffer (/repo/src/mesh/triangulation.rs) and of the vertex export
    (/repo/src/halfedge/mesh/basics.rs [dense_vertices], /repo/src/mesh/mesh/triangulate.rs). *)
From Coq Require Import List Arith Bool QArith Qabs.
From Verif Require Import Base DVec Mesh Tess.
Import ListNotations.
Set Implicit Arguments.
Unset Strict Implicit.
Local Open Scope nat_scope.

(** triangulation.rs:32-38 [Triangulation] *)
Record tbuf := mkB { b_idx : list nat; b_start : nat }.
(** triangulation.rs:58-63 *)
Definition b_new (ix : list nat) : tbuf := mkB ix (length ix).
(** triangulation.rs:66-68 *)
Definition b_insert (t : tbuf) (a b c : nat) : tbuf := mkB (b_idx t ++ [a; b; c]) (b_start t).
(** triangulation.rs:71-73 *)
Definition b_get (t : tbuf) (i : nat) : res nat := at_ (b_idx t) (b_start t + i).
(** triangulation.rs:76-82 *)
Definition b_triangle (t : tbuf) (i : nat) : res tri3 :=
  let* a := at_ (b_idx t) (b_start t + 3 * i) in
  let* b := at_ (b_idx t) (b_start t + 3 * i + 1) in
  let* c := at_ (b_idx t) (b_start t + 3 * i + 2) in Ok (a, b, c).
(** triangulation.rs:119-123; the subtraction cannot underflow: the buffer only grows *)
Definition b_len (t : tbuf) : res nat :=
  let n := length (b_idx t) - b_start t in
  assert (n mod 3 =? 0) (Ok (n / 3)).

(** A [HashMap] as an association list: the most recent insertion is first. *)
Definition hmap (B : Type) := list (nat * B).
Fixpoint hget {B} (h : hmap B) (k : nat) : option B :=
  match h with [] => None | (k', b) :: h => if k =? k' then Some b else hget h k end.

(** triangulation.rs:112-116 [map_indices]: positions [start..indices.len()] *)
Definition map_from (h : hmap nat) (l : list nat) : res (list nat) :=
  mapM (fun x => unwrap (hget h x)) l.
Definition map_indices (t : tbuf) (h : hmap nat) : res tbuf :=
  let* r := map_from h (skipn (b_start t) (b_idx t)) in
  Ok (mkB (firstn (b_start t) (b_idx t) ++ r) (b_start t)).

(** triangulation.rs:131-178 [flip_edge]; [None] stands for [Err(())] *)
Definition offset_of (ix : list nat) (t a : nat) : res nat :=
  let* x := at_ ix t in
  if x =? a then Ok 0 else let* y := at_ ix (t + 1) in if y =? a then Ok 1 else Ok 2.
Definition b_write (ix : list nat) (i x : nat) : res (list nat) :=
  if i <? length ix then Ok (upd ix i x) else Panic.
Definition flip_indices (ix : list nat) (a b tab tba : nat) : res (option (list nat)) :=
  let* oab := offset_of ix tab a in
  let* x := at_ ix (tab + oab) in
  let* y := at_ ix (tab + (oab + 1) mod 3) in
  if negb (x =? a) || negb (y =? b) then Ok None else
  let* oba := offset_of ix tba a in
  let* x := at_ ix (tba + oba) in
  let* y := at_ ix (tba + (oba + 2) mod 3) in
  if negb (x =? a) || negb (y =? b) then Ok None else
  let* c := at_ ix (tab + (oab + 2) mod 3) in
  let* d := at_ ix (tba + (oba + 1) mod 3) in
  let* ix := b_write ix tab a in
  let* ix := b_write ix (tab + 1) d in
  let* ix := b_write ix (tab + 2) c in
  let* ix := b_write ix tba d in
  let* ix := b_write ix (tba + 1) b in
  let* ix := b_write ix (tba + 2) c in
  Ok (Some ix).

(** ** Self-checks *)
Section Verify.
  Variable P : Type.
  Variable hm : nat -> option P. (** [vec_hm] *)

  (** triangulation.rs:181-194 [verify_non_degenerate_triangle]:
      [for i in self.start..self.len()]; [negative] is [!(area >= -sqrt(eps))] *)
  Definition verify_non_degenerate (negative : P -> P -> P -> bool) (t : tbuf) : res unit :=
    let* n := b_len t in
    foldM (fun _ i =>
      let* x := b_triangle t i in
      match x with (a, b, c) =>
        let* p := unwrap (hm a) in let* q := unwrap (hm b) in let* r := unwrap (hm c) in
        assert (negb (negative p q r)) (Ok tt)
      end) (seq (b_start t) (n - b_start t)) tt.

  (** triangulation.rs:289-299 [total_edge_weight] *)
  Definition total_edge_weight (dist : P -> P -> Q) (t : tbuf) : res Q :=
    let* n := b_len t in
    foldM (fun acc i =>
      let* x := b_triangle t i in
      match x with (a, b, c) =>
        let* p := unwrap (hm a) in let* q := unwrap (hm b) in let* r := unwrap (hm c) in
        Ok (acc + (dist q p + dist r q + dist p r))%Q
      end) (seq (b_start t) (n - b_start t)) 0%Q.

  (** triangulation.rs:217-277 [verify_no_intersections]; [meets p q r s] is
      "the segments p-q and r-s intersect". [(start..num).step_by(3)] *)
  Definition step3 (from to : nat) : list nat :=
    map (fun k => from + 3 * k) (seq 0 ((to - from + 2) / 3)).
  Definition verify_no_intersections (meets : P -> P -> P -> P -> bool) (t : tbuf) : res unit :=
    let num := length (b_idx t) - b_start t in
    foldM (fun _ i => foldM (fun _ j =>
      if i =? j then Ok tt else
      foldM (fun _ k => foldM (fun _ l =>
        let* i0 := b_get t (i + k) in let* v0 := unwrap (hm i0) in
        let* i1 := b_get t (i + (k + 1) mod 3) in let* v1 := unwrap (hm i1) in
        let* i2 := b_get t (j + l) in let* v2 := unwrap (hm i2) in
        let* i3 := b_get t (j + (l + 1) mod 3) in let* v3 := unwrap (hm i3) in
        if (i0 =? i2) || (i0 =? i3) || (i1 =? i2) || (i1 =? i3) then Ok tt else
        assert (negb (meets v0 v1 v2 v3)) (Ok tt)) [0; 1; 2] tt) [0; 1; 2] tt)
      (step3 (b_start t) num) tt) (step3 (b_start t) num) tt.

  (** triangulation.rs:280-286 [get_area]: [HALF * sum |get_triangle_area(i)|] over [0..len] *)
  Definition get_area (area2 : P -> P -> P -> Q) (t : tbuf) : res Q :=
    let* n := b_len t in
    let* s := foldM (fun acc i =>
      let* x := b_triangle t i in
      match x with (a, b, c) =>
        let* p := unwrap (hm a) in let* q := unwrap (hm b) in let* r := unwrap (hm c) in
        Ok (acc + Qabs (area2 p q r))%Q
      end) (seq 0 n) 0%Q in
    Ok ((1 # 2) * s)%Q.
  (** triangulation.rs:302-318 [verify_area]; [reference] is the area of the polygon, not zero here *)
  Definition verify_area (area2 : P -> P -> P -> Q) (eps reference : Q) (t : tbuf) : res unit :=
    let* a := get_area area2 t in
    assert (Qle_bool (Qabs (1 - a / reference)) (1 + 5 * eps)) (Ok tt).

  (** triangulation.rs:197-214 [verify_indices]; [nv] is [vec_hm.len()] (the subtraction panics below 2) *)
  Definition verify_indices (nv : nat) (t : tbuf) : res unit :=
    let* n := b_len t in
    assert (2 <=? nv) (assert (n =? nv - 2)
    (foldM (fun _ x => assert (negb (is_none (hm x))) (Ok tt)) (skipn (b_start t) (b_idx t)) tt)).
End Verify.

(** triangulation.rs:321-342 [verify_all_indices_used]; [seen] is a set *)
Fixpoint set_add (x : nat) (s : list nat) : list nat :=
  match s with [] => [x] | y :: r => if x =? y then s else y :: set_add x r end.
Definition set_of (l : list nat) : list nat := fold_left (fun s x => set_add x s) l [].
Definition verify_all_indices_used (vs : list nat) (t : tbuf) : res unit :=
  let seen := set_of (skipn (b_start t) (b_idx t)) in
  let* seen := foldM (fun seen v =>
      assert (existsb (Nat.eqb v) seen) (Ok (filter (fun x => negb (x =? v)) seen))) vs seen in
  assert (match seen with [] => true | _ => false end) (Ok tt).

(** ** Vertex export *)
Section Export.
  Context {VP EP FP : Type}.
  (** halfedge/mesh/basics.rs:136-160 [dense_vertices]; [blank] is [VP::allocate()] *)
  Definition dense_vertices (blank : VP) (m : mesh VP EP FP) (ix : list nat) : res (list VP * list nat) :=
    let vs := d_iter (verts m) in
    if d_len (verts m) =? d_cap (verts m) then
      let* out := foldM (fun out (v : nat * vertex VP) =>
          if fst v <? length out then Ok (upd out (fst v) (v_pay (snd v))) else Panic)
        vs (repeat blank (d_cap (verts m))) in
      Ok (out, ix)
    else
      let r := fold_left (fun (st : hmap nat * list VP) (v : nat * vertex VP) =>
          ((fst v, length (snd st)) :: fst st, snd st ++ [v_pay (snd v)])) vs ([], []) in
      let* t := map_indices (b_new ix) (fst r) in
      Ok (snd r, b_idx t).

  (** mesh/mesh/triangulate.rs:36-63 [triangulate_and_generate_flat_normals_post]. The faces are given
      by the (id, payload) lists of their vertices (see C05 for the traversal); [set_normal k p] is
      the payload with the normal of the k-th face; [tf] is [triangulate_face]: the indices it appends. *)
  Definition flat_face (tf : list (nat * VP) -> res (list nat)) (nrm : VP -> VP)
      (st : list nat * list VP) (f : list (nat * VP)) : res (list nat * list VP) :=
    let t := b_new (fst st) in
    let r := fold_left (fun (s : hmap nat * list VP) (v : nat * VP) =>
        ((fst v, length (snd s)) :: fst s, snd s ++ [nrm (snd v)])) f ([], snd st) in
    let* app := tf f in
    let* t := map_indices (mkB (b_idx t ++ app) (b_start t)) (fst r) in
    Ok (b_idx t, snd r).
  Definition flat_normals (tf : list (nat * VP) -> res (list nat)) (set_normal : list (nat * VP) -> VP -> VP)
      (fs : list (list (nat * VP))) : res (list nat * list VP) :=
    foldM (fun st f => flat_face tf (set_normal f) st f) fs ([], []).
End Export.
