(** Model of the sweep-line triangulation
    (/repo/src/tesselate/sweep/{sweep,status,interval,point,vertex_type}.rs).

    The vertices are the local indices [0 .. n-1]. The order and the types of the events and the
    answer of [find_by_position] are parameters; the geometric versions follow below. The b-tree of
    status.rs is only used to answer [find_by_position]; its own assertions (which can only add
    panics) are not modelled. The debug output ([SweepMeta], feature "sweep_debug") is left out. *)
From Coq Require Import List Arith Bool QArith Qabs.
From Verif Require Import Base Mesh Tess Monotone GeoSpec Geo.
Import ListNotations.
Set Implicit Arguments.
Unset Strict Implicit.
Local Open Scope nat_scope.

(** vertex_type.rs:5-47 *)
Inductive vtype := VUndefined | VStart | VStartLate | VSplit | VSplitLate | VEnd | VEndLate | VMerge | VMergeLate
                 | VRegular | VUndecisive.
(** point.rs:8-21 (without the position) *)
Record event := mkEv { v_here : nat; v_prev : nat; v_next : nat; v_type : vtype }.
(** point.rs:24-27 *)
Definition prev_of (n i : nat) : nat := (i + n - 1) mod n.
Definition next_of (n i : nat) : nat := (i + 1) mod n.

Section Sweep.
  Variable M : mono.
  Variable dbg : bool.

  (** interval.rs:65-84; a boundary edge is a pair (start, end) *)
  Record interval := mkI { i_helper : nat; i_left : nat * nat; i_right : nat * nat;
                           i_chain : m_st M; i_fixup : option (m_st M) }.
  (** interval.rs:100-108 *)
  Definition is_circular (i : interval) : bool :=
    ((fst (i_left i) =? snd (i_right i)) && (fst (i_right i) =? snd (i_left i)))
    || ((fst (i_left i) =? fst (i_right i)) && (snd (i_left i) =? snd (i_right i))).
  Definition is_end (i : interval) : bool := snd (i_left i) =? snd (i_right i).
  (** interval.rs:110-115 *)
  Definition i_sanity (i : interval) : res unit :=
    assert (negb (is_circular i)) (m_sanity (i_chain i) (fst (i_left i)) (fst (i_right i)) (i_fixup i)).

  (** status.rs:91-100; [usize::MAX] is [None] *)
  Record status := mkS { s_left : list (option interval); s_right : list (option nat) }.
  (** status.rs:103-112 *)
  Definition s_new (n : nat) : status := mkS (repeat None n) (repeat None n).
  (** [l[i] = x] *)
  Definition set_at {A} (l : list A) (i : nat) (x : A) : res (list A) :=
    assert (i <? length l) (Ok (upd l i x)).
  (** status.rs:114-129 *)
  Definition s_insert (st : status) (v : interval) : res status :=
    let* _ := (if dbg then i_sanity v else Ok tt) in
    let* r := set_at (s_right st) (snd (i_right v)) (Some (snd (i_left v))) in
    let* l := set_at (s_left st) (snd (i_left v)) (Some v) in
    Ok (mkS l r).
  (** status.rs:131-146 *)
  Definition s_remove_left (st : status) (k : nat) : res (option (interval * status)) :=
    match nth_error (s_left st) k with
    | Some (Some v) =>
        let* r := set_at (s_right st) (snd (i_right v)) None in
        Ok (Some (v, mkS (upd (s_left st) k None) r))
    | _ => Ok None
    end.
  (** status.rs:148-150 *)
  Definition s_peek_left (st : status) (k : nat) : res (option interval) := at_ (s_left st) k.
  (** status.rs:152-171; the second component is the status also when nothing is found *)
  Definition s_remove_right (st : status) (key : nat) : res (option interval * status) :=
    let* k := at_ (s_right st) key in
    match k with
    | None => Ok (None, st)
    | Some k =>
        let r := upd (s_right st) key None in
        match nth_error (s_left st) k with
        | Some (Some v) => Ok (Some v, mkS (upd (s_left st) k None) r)
        | _ => Ok (None, mkS (s_left st) r)
        end
    end.
  (** status.rs:173-179 *)
  Definition s_peek_right (st : status) (key : nat) : res (option interval) :=
    let* k := at_ (s_right st) key in
    match k with None => Ok None | Some k => s_peek_left st k end.

  (** answer of [find_by_position] for the position of a vertex *)
  Variable find : status -> nat -> res (option nat).

  Definition ctx := (status * list nat)%type.

  (** sweep.rs:104-116 *)
  Definition sw_start (c : ctx) (e : event) : res ctx :=
    let* st := s_insert (fst c) (mkI (v_here e) (v_here e, v_next e) (v_here e, v_prev e) (m_new M (v_here e)) None) in
    Ok (st, snd c).

  (** sweep.rs:119-178 *)
  Definition sw_try_split (c : ctx) (e : event) : res (bool * ctx) :=
    let* o := find (fst c) (v_here e) in
    match o with
    | None => Ok (false, c)
    | Some i =>
        let* o := s_remove_left (fst c) i in
        let* p := unwrap o in
        let line := fst p in let st := snd p in
        assert (negb (is_end line))
        (let* r := (match i_fixup line with
            | Some fixup =>
                let* t := m_last_opposite fixup in
                let* r := m_right fixup (v_here e) (snd c) in
                let* ix := m_finish (fst r) (snd r) in
                m_left (m_new M t) (v_here e) ix
            | None =>
                if m_is_right (i_chain line) then m_left (m_new M (i_helper line)) (v_here e) (snd c)
                else let* t := m_last_opposite (i_chain line) in m_left (m_new M t) (v_here e) (snd c)
            end) in
         let stacks := fst r in
         let* r := m_right (i_chain line) (v_here e) (snd r) in
         let* st := s_insert st (mkI (v_here e) (i_left line) (v_here e, v_prev e) (fst r) None) in
         let* st := s_insert st (mkI (v_here e) (v_here e, v_next e) (i_right line) stacks None) in
         Ok (true, (st, snd r)))
    end.

  (** sweep.rs:181-220 *)
  Definition sw_start_or_split (c : ctx) (e : event) : res ctx :=
    let* r := sw_try_split c e in
    if fst r then Ok (snd r) else sw_start (snd r) e.

  (** sweep.rs:224-238 *)
  Definition sw_end (c : ctx) (e : event) : res ctx :=
    let* o := s_remove_left (fst c) (v_here e) in
    let* p := unwrap o in
    let line := fst p in
    assert (is_end line)
    (let* ix := (match i_fixup line with
        | Some fixup => let* r := m_right fixup (v_here e) (snd c) in m_finish (fst r) (snd r)
        | None => Ok (snd c)
        end) in
     let* r := m_left (i_chain line) (v_here e) ix in
     let* ix := m_finish (fst r) (snd r) in
     Ok (snd p, ix)).

  (** sweep.rs:241-289 *)
  Definition sw_merge (c : ctx) (e : event) : res ctx :=
    let* r := s_remove_right (fst c) (v_here e) in
    let* lft := unwrap (fst r) in
    let* o := s_remove_left (snd r) (v_here e) in
    let* p := unwrap o in
    let rgt := fst p in let st := snd p in
    assert (negb (is_end lft)) (assert (negb (is_end rgt))
    (let* ix := (match i_fixup lft with
        | Some fixup => let* r := m_right fixup (v_here e) (snd c) in m_finish (fst r) (snd r)
        | None => Ok (snd c)
        end) in
     let* r := (match i_fixup rgt with
        | Some fixup =>
            let* r := m_left (i_chain rgt) (v_here e) ix in
            let* ix := m_finish (fst r) (snd r) in
            Ok (fixup, ix)
        | None => Ok (i_chain rgt, ix)
        end) in
     let new_fixup := fst r in
     let* r := m_right (i_chain lft) (v_here e) (snd r) in
     let new_stacks := fst r in
     let* r := m_left new_fixup (v_here e) (snd r) in
     let* st := s_insert st (mkI (v_here e) (i_left lft) (i_right rgt) new_stacks (Some (fst r))) in
     Ok (st, snd r))).

  (** sweep.rs:324-346, the left case of [regular] *)
  Definition sw_regular_left (c : ctx) (e : event) (v : interval) : res ctx :=
    let* r := (match i_fixup v with
        | Some fixup =>
            let* r := m_left (i_chain v) (v_here e) (snd c) in
            let* ix := m_finish (fst r) (snd r) in
            Ok (fixup, ix)
        | None => Ok (i_chain v, snd c)
        end) in
    let* r := m_left (fst r) (v_here e) (snd r) in
    let* st := s_insert (fst c) (mkI (v_here e) (v_here e, v_next e) (i_right v) (fst r) None) in
    Ok (st, snd r).
  (** sweep.rs:370-389, the right case of [regular] *)
  Definition sw_regular_right (c : ctx) (e : event) (v : interval) : res ctx :=
    let* ix := (match i_fixup v with
        | Some fixup => let* r := m_right fixup (v_here e) (snd c) in m_finish (fst r) (snd r)
        | None => Ok (snd c)
        end) in
    let* r := m_right (i_chain v) (v_here e) ix in
    let* st := s_insert (fst c) (mkI (v_here e) (i_left v) (v_here e, v_prev e) (fst r) None) in
    Ok (st, snd r).

  (** sweep.rs:292-393 *)
  Definition sw_regular (c : ctx) (e : event) (undecisive : bool) : res ctx :=
    let* o := s_remove_left (fst c) (v_here e) in
    match o with
    | Some (v, st) =>
        if undecisive && is_end v then
          let* st := s_insert st v in sw_end (st, snd c) e
        else
        let* q := (if undecisive then s_peek_right st (v_here e) else Ok None) in
        match q with
        | Some _ => let* st := s_insert st v in sw_merge (st, snd c) e
        | None => sw_regular_left (st, snd c) e v
        end
    | None =>
        let* r := s_remove_right (fst c) (v_here e) in
        match r with
        | (Some v, st) =>
            if undecisive && is_end v then
              let* st := s_insert st v in sw_end (st, snd c) e
            else
            let* q := (if undecisive then s_peek_left st (v_here e) else Ok None) in
            match q with
            | Some _ => let* st := s_insert st v in sw_merge (st, snd c) e
            | None => sw_regular_right (st, snd c) e v
            end
        | (None, st) => sw_start_or_split (st, snd c) e
        end
    end.

  (** sweep.rs:61-71 *)
  Definition sw_event (c : ctx) (e : event) : res ctx :=
    match v_type e with
    | VStart => sw_start c e
    | VSplit => let* r := sw_try_split c e in assert (fst r) (Ok (snd r))
    | VMerge => sw_merge c e
    | VEnd => sw_end c e
    | VRegular => sw_regular c e false
    | VUndecisive => sw_regular c e true
    | _ => Panic
    end.
  Fixpoint sw_events (es : list event) (c : ctx) : res ctx :=
    match es with [] => Ok c | e :: es => let* c := sw_event c e in sw_events es c end.

  (** sweep.rs:34-45 *)
  Definition first_ok (t : vtype) : bool := match t with VStart | VRegular | VUndecisive => true | _ => false end.
  Definition last_ok (t : vtype) : bool := match t with VEnd | VRegular | VUndecisive => true | _ => false end.

  (** sweep.rs:20-76 [sweep_line_triangulation], after the queue [es] has been sorted *)
  Definition sweep (n : nat) (es : list event) (ix : list nat) : res ctx :=
    assert (3 <=? n)
    (let* f := unwrap (hd_error es) in
     let* l := unwrap (hd_error (rev es)) in
     assert (first_ok (v_type f)) (assert (last_ok (v_type l)) (sw_events es (s_new n, ix)))).
End Sweep.

(** ** The geometric predicates, on points with rational coordinates *)

(** vertex_type.rs:53-96; [Qlt_b] is the strict comparison *)
Definition Qlt_b (a b : Q) : bool := negb (Qle_bool b a).
Definition classify (tol : Q) (prev here next : pt) : vtype :=
  let cross := perp_dot (vsub here prev) (vsub next here) in
  let above_prev := Qlt_b tol (snd here - snd prev) in
  let above_next := Qlt_b tol (snd here - snd next) in
  let below_prev := Qlt_b tol (snd prev - snd here) in
  let below_next := Qlt_b tol (snd next - snd here) in
  let by_cross (p q : vtype) := if Qlt_b tol cross then p else if Qlt_b cross (- tol) then q else VUndecisive in
  if (above_prev && above_next) || (below_prev && below_next && Qle_bool (Qabs cross) tol)
  then by_cross VStart VSplit
  else if below_prev && below_next then by_cross VEnd VMerge
  else if (negb above_next && negb below_next) || (negb above_prev && negb below_prev)
          || Qle_bool (Qabs cross) (tol * 2)
       then VUndecisive else VRegular.

Section Geometric.
  Variable vs : list (pt * nat).
  Let n := length vs.
  Definition pos_of (i : nat) : res pt := let* p := at_ vs i in Ok (fst p).

  (** point.rs:24-40 *)
  Definition classify_at (tol : Q) (i : nat) : res event :=
    let* p := pos_of (prev_of n i) in let* h := pos_of i in let* q := pos_of (next_of n i) in
    Ok (mkEv i (prev_of n i) (next_of n i) (classify tol p h q)).

  (** point.rs:65-83 [cmp]: [Less] or [Equal] *)
  Definition event_le (a b : event) : bool :=
    match nth_error vs (v_here a), nth_error vs (v_here b) with
    | Some (p, _), Some (q, _) =>
        if Qeq_bool (snd p) (snd q) then Qle_bool (fst q) (fst p) else Qle_bool (snd q) (snd p)
    | _, _ => false
    end.
  (** a sorted order ([sort_unstable]); equal events may come in any order in the code *)
  Fixpoint insert_event (e : event) (l : list event) : list event :=
    match l with [] => [e] | f :: l => if event_le e f then e :: f :: l else f :: insert_event e l end.
  Definition sort_events (l : list event) : list event := fold_right insert_event [] l.

  (** interval.rs:19-34 *)
  Definition x_at_y (edge : nat * nat) (y : Q) : res Q :=
    let* e := pos_of (snd edge) in let* s := pos_of (fst edge) in
    let dx := (fst e - fst s)%Q in let dy := (snd e - snd s)%Q in
    Ok (if Qeq_bool dy 0 then fst e else (fst s + dx * (y - snd s) / dy)%Q).

  Variable M : mono.
  (** interval.rs:88-97 *)
  Definition i_contains (v : interval M) (p : pt) : res bool :=
    let* p1 := x_at_y (i_left v) (snd p) in
    if Qlt_b (fst p) p1 then Ok false else
    let* p2 := x_at_y (i_right v) (snd p) in
    assert (Qle_bool p1 p2) (Ok (Qle_bool (fst p) p2)).
  (** status.rs:201-216 [find_linearly]; used up to eight vertices (status.rs:284-293) *)
  Fixpoint find_from (k : nat) (l : list (option (interval M))) (p : pt) : res (option nat) :=
    match l with
    | [] => Ok None
    | None :: l => find_from (S k) l p
    | Some v :: l => let* b := i_contains v p in if b then Ok (Some k) else find_from (S k) l p
    end.
  Definition find_linearly (st : status M) (i : nat) : res (option nat) :=
    let* p := pos_of i in find_from 0 (s_left st) p.

  (** sweep.rs:20-76 for at most eight vertices *)
  Definition sweep_small (dbg : bool) (tol : Q) (ix : list nat) : res (ctx M) :=
    assert (3 <=? n)
    (let* es := mapM (classify_at tol) (seq 0 n) in
     sweep dbg find_linearly n (sort_events es) ix).
End Geometric.
