(** Model of the triangulation algorithms that work on a vertex list
    (/repo/src/tesselate/{convex,fixed_n,ear_clipping,min_weight_dynamic}.rs).

    A vertex list is a list of (position, index) pairs; the geometric predicates are parameters, so
    that theorems hold for every outcome. [Triangulation::insert_triangle] (triangulation.rs:66-68)
    appends three indices to the buffer: the models return the list of appended triangles in order. *)
From Coq Require Import List Arith Bool.
From Verif Require Import Base.
Import ListNotations.
Set Implicit Arguments.
Unset Strict Implicit.

Definition tri3 := (nat * nat * nat)%type.

(** [vs[i]] *)
Definition at_ {A} (l : list A) (i : nat) : res A := unwrap (nth_error l i).

(** convex.rs:5-18 [fan_triangulation]: [vs] are the ids yielded by [face.vertices(mesh)];
    the two debug asserts (planar, convex) are passed as one boolean.
    [skip(1).tuple_windows()] yields the consecutive pairs of the tail. *)
Fixpoint windows {A} (l : list A) : list (A * A) :=
  match l with a :: ((b :: _) as r) => (a, b) :: windows r | _ => [] end.
Definition fan_triangulation (dbg flat : bool) (vs : list nat) : res (list tri3) :=
  assert (negb dbg || flat)
  (let* center := unwrap (hd_error vs) in
   Ok (map (fun p => (center, fst p, snd p)) (windows (tl vs)))).

Section Quad.
  Variables (P S : Type).
  Variable distance_squared : P -> P -> S.
  Variable leS : S -> S -> bool.
  (** [convex p prev next] is [p.convex(prev, next)] (vector2d.rs:14-17) *)
  Variable convex : P -> P -> P -> bool.

  (** fixed_n.rs:59-96 [min_weight_quad] *)
  Definition min_weight_quad (vs : list (P * nat)) : res (list tri3) :=
    match vs with
    | [(p0, i0); (p1, i1); (p2, i2); (p3, i3)] =>
        Ok (if leS (distance_squared p0 p2) (distance_squared p1 p3) then
              if convex p1 p2 p0 && convex p3 p0 p2
              then [(i0, i1, i2); (i0, i2, i3)] else [(i1, i2, i3); (i1, i3, i0)]
            else
              if convex p0 p3 p1 && convex p2 p1 p3
              then [(i1, i2, i3); (i1, i3, i0)] else [(i0, i1, i2); (i0, i2, i3)])
    | _ => Panic
    end.

  (** fixed_n.rs:36-55 [try_min_weight_small_direct]; [None] stands for [false]. *)
  Definition try_min_weight_small_direct (vs : list (P * nat)) : res (option (list tri3)) :=
    match length vs with
    | 3 => match map snd vs with [a; b; c] => Ok (Some [(a, b, c)]) | _ => Panic end
    | 4 => let* t := min_weight_quad vs in Ok (Some t)
    | _ => Ok None
    end.
End Quad.

Section Ear.
  Variable P : Type.
  Variables (convex : P -> P -> P -> bool) (inside3 : P -> P -> P -> P -> bool) (collinear : P -> P -> P -> bool).
  Variable rnd : nat -> nat. (** outcome of the k-th call of the random generator *)

  (** ear_clipping.rs:56-58: [while clipped[i] { i = (i + 1) % n0 }] *)
  Fixpoint next_live (fuel : nat) (clipped : list bool) (n0 i : nat) : res nat :=
    match fuel with
    | 0 => Diverge
    | S fuel => let* b := at_ clipped i in if b then next_live fuel clipped n0 ((i + 1) mod n0) else Ok i
    end.

  (** ear_clipping.rs:34-41 [triangle_empty] *)
  Definition triangle_empty (vs : list (P * nat)) (a b c : nat) : res bool :=
    let* av := at_ vs a in let* bv := at_ vs b in let* cv := at_ vs c in
    Ok (forallb (fun iv => (fst iv =? a) || (fst iv =? b) || (fst iv =? c)
                           || negb (inside3 (fst (snd iv)) (fst av) (fst bv) (fst cv)))
                (combine (seq 0 (length vs)) vs)).

  Record ear_st := mkEar { er_clipped : list bool; er_ia : nat; er_n : nat; er_fails : nat; er_succ : nat; er_draws : nat }.

  (** ear_clipping.rs:54-99, the main loop *)
  Fixpoint ear_loop (fuel : nat) (dbg randomize : bool) (vs : list (P * nat)) (s : ear_st) (out : list tri3) : res (list tri3) :=
    match fuel with
    | 0 => Diverge
    | S fuel =>
      let n0 := length vs in
      if er_n s <=? 2 then Ok out else
      let* ib := next_live (S n0) (er_clipped s) n0 ((er_ia s + 1) mod n0) in
      let* ic := next_live (S n0) (er_clipped s) n0 ((ib + 1) mod n0) in
      let ia := er_ia s in
      assert (negb dbg || (negb (ia =? ib) && negb (ib =? ic) && negb (ic =? ia)))
      (let* a := at_ vs ia in let* b := at_ vs ib in let* c := at_ vs ic in
       let* em := triangle_empty vs ia ib ic in
       let blocked := negb (convex (fst b) (fst a) (fst c)) || negb em
                      || ((2 <=? er_succ s) && collinear (fst b) (fst a) (fst c)) in
       let fails := S (er_fails s) in
       if blocked && (fails <=? er_n s) then
         ear_loop fuel dbg randomize vs (mkEar (er_clipped s) ib (er_n s) fails (er_succ s) (er_draws s)) out
       else if blocked && (er_succ s <? 2) then Panic
       else
         let succ := if blocked then 0 else er_succ s in
         let out := out ++ [(snd a, snd c, snd b)] in
         let clipped := upd (er_clipped s) ib true in
         if randomize then
           let* ia' := next_live (S n0) clipped n0 (rnd (er_draws s) mod n0) in
           ear_loop fuel dbg randomize vs (mkEar clipped ia' (er_n s - 1) 0 (S succ) (S (er_draws s))) out
         else ear_loop fuel dbg randomize vs (mkEar clipped ia (er_n s - 1) 0 (S succ) (er_draws s)) out)
    end.

  (** ear_clipping.rs:26-100 [ear_clipping_direct]. [convex], [inside3] and [collinear] stand for the
      methods of [Vector2D]; [triangle_empty] is evaluated even if [convex] is false (it is pure). *)
  Definition ear_clipping_direct (dbg randomize : bool) (vs : list (P * nat)) : res (list tri3) :=
    let n0 := length vs in
    if n0 <? 3 then Ok [] else
    let ia := if randomize then rnd 0 mod n0 else 0 in
    ear_loop (S ((n0 + 2) * (n0 + 2))) dbg randomize vs
      (mkEar (repeat false n0) ia n0 0 0 1) [].
End Ear.

(** ** min_weight_dynamic.rs *)

(** min_weight_dynamic.rs:33-90 [TriangularStore] *)
Section Store.
  Variable A : Type.
  Record store := mkStore { st_data : list A; st_n : nat }.
  Definition st_new (n : nat) (d : A) : res store :=
    assert (1 <? n) (Ok (mkStore (repeat d ((n * (n - 1)) / 2)) n)).
  Definition st_index (dbg : bool) (s : store) (i j : nat) : res nat :=
    assert (negb dbg || ((1 <=? j) && (i <? j) && (j <? st_n s))) (Ok ((j * (j - 1)) / 2 + i)).
  Definition st_get (dbg : bool) (s : store) (i j : nat) : res A :=
    let* k := st_index dbg s i j in at_ (st_data s) k.
  Definition st_set (dbg : bool) (s : store) (i j : nat) (a : A) : res store :=
    let* k := st_index dbg s i j in
    assert (k <? length (st_data s)) (Ok (mkStore (upd (st_data s) k a) (st_n s))).
End Store.

(** Scalars with infinities: NEG_INFINITY marks entries that have not been computed. *)
Section MinWeight.
  Variables (P W : Type).
  Variable addW : W -> W -> W.
  Variable ltW : W -> W -> bool.
  Variable zeroW : W.
  Variable distance : P -> P -> W.

  Inductive ext := NegInf | Fin (w : W) | PosInf.
  Definition ext_add (x y : ext) : ext :=
    match x, y with
    | Fin a, Fin b => Fin (addW a b)
    | NegInf, _ | _, NegInf => NegInf
    | _, _ => PosInf
    end.
  Definition ext_lt (x y : ext) : bool :=
    match x, y with
    | Fin a, Fin b => ltW a b
    | NegInf, NegInf => false | NegInf, _ => true
    | _, NegInf => false
    | Fin _, PosInf => true
    | PosInf, _ => false
    end.
  Definition is_neg_inf (x : ext) : bool := match x with NegInf => true | _ => false end.

  (** min_weight_dynamic.rs:463-465 *)
  Definition triangle_weight (a b c : P) : W := addW (addW (distance a b) (distance b c)) (distance c a).

  (** min_weight_dynamic.rs:208-215 *)
  Definition initialize_m (dbg : bool) (n : nat) : res (store ext) :=
    let* m := st_new n NegInf in
    (fix go (is : list nat) (m : store ext) : res (store ext) :=
       match is with
       | [] => Ok m
       | i :: is => let* m := st_set dbg m i (i + 1) (Fin zeroW) in go is m
       end) (seq 0 (n - 1)) m.

  (** min_weight_dynamic.rs:192-206; [vd i j] is [poly.valid_diagonal(i, j)] *)
  Definition find_valid_diagonals (dbg : bool) (vd : nat -> nat -> bool) (n : nat) : res (store bool) :=
    let* v := st_new n true in
    (fix go (ij : list (nat * nat)) (v : store bool) : res (store bool) :=
       match ij with
       | [] => Ok v
       | (i, j) :: ij => let* v := st_set dbg v i j (vd i j) in go ij v
       end) (flat_map (fun i => map (fun j => (i, j)) (seq (i + 2) (n - (i + 2)))) (seq 0 n)) v.

  (** min_weight_dynamic.rs:164-182, the search for the best apex; [None] is the sentinel [IndexType::max()] *)
  Fixpoint best_k (dbg : bool) (m : store ext) (valid : store bool) (vs : list (P * nat)) (i j : nat)
      (ks : list nat) (best : ext * option nat) : res (ext * option nat) :=
    match ks with
    | [] => Ok best
    | k :: ks =>
        let* mik := st_get dbg m i k in let* mkj := st_get dbg m k j in
        assert (negb dbg || (negb (is_neg_inf mik) && negb (is_neg_inf mkj)))
        (let* vik := st_get dbg valid i k in let* vkj := st_get dbg valid k j in
         if negb vik || negb vkj then best_k dbg m valid vs i j ks best else
         let* a := at_ vs i in let* b := at_ vs j in let* c := at_ vs k in
         let cost := ext_add (ext_add mik mkj) (Fin (triangle_weight (fst a) (fst b) (fst c))) in
         best_k dbg m valid vs i j ks (if ext_lt cost (fst best) then (cost, Some k) else best))
    end.

  (** min_weight_dynamic.rs:147-188 [fill_m], the loops over l and i as one list of pairs *)
  Fixpoint fill_cells (dbg : bool) (valid : store bool) (vs : list (P * nat)) (ij : list (nat * nat))
      (ms : store ext * store (option nat)) : res (store ext * store (option nat)) :=
    match ij with
    | [] => Ok ms
    | (i, j) :: ij =>
        let* b := best_k dbg (fst ms) valid vs i j (seq (i + 1) (j - (i + 1))) (PosInf, None) in
        let* m := st_set dbg (fst ms) i j (fst b) in
        let* s := st_set dbg (snd ms) i j (snd b) in
        fill_cells dbg valid vs ij (m, s)
    end.
  Definition cells (n from to : nat) : list (nat * nat) :=
    flat_map (fun l => map (fun i => (i, i + l)) (seq 0 (n - l))) (seq from (to + 1 - from)).

  (** min_weight_dynamic.rs:467-487 [traceback]; the recursion depth is bounded by [fuel].
      [insert_triangle_local] (triangulation.rs:100-109) reads [vs]; with the sentinel it is out of range. *)
  Fixpoint traceback (fuel : nat) (dbg : bool) (s : store (option nat)) (vs : list (P * nat)) (i j : nat) : res (list tri3) :=
    match fuel with
    | 0 => Diverge
    | S fuel =>
      if j - i <? 2 then Ok [] else
      let* o := st_get dbg s i j in
      let* k := unwrap o in
      assert (negb dbg || ((i <? k) && (k <? j)))
      (let* a := at_ vs i in let* b := at_ vs k in let* c := at_ vs j in
       let* t1 := traceback fuel dbg s vs i k in
       let* t2 := traceback fuel dbg s vs k j in
       Ok ((snd a, snd b, snd c) :: t1 ++ t2))
    end.

  (** min_weight_dynamic.rs:427-448 *)
  Definition minweight_dynamic_direct (dbg : bool) (vd : nat -> nat -> bool) (vs : list (P * nat)) : res (list tri3) :=
    let n := length vs in
    assert (4 <=? n)
    (let* m := initialize_m dbg n in
     let* s := st_new n (@None nat) in
     let* valid := find_valid_diagonals dbg vd n in
     let* ms := fill_cells dbg valid vs (cells n 2 (n - 1)) (m, s) in
     traceback n dbg (snd ms) vs 0 (n - 1)).
End MinWeight.
Arguments NegInf {W}.
Arguments Fin {W} w.
Arguments PosInf {W}.
