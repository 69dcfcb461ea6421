(** Model of the monotone triangulators
    (/repo/src/tesselate/sweep/monotone/{mod,linear,dynamic,delaunay}.rs).

    A vertex list is a list of (position, index) pairs. The index buffer is the flat list of indices
    ([Triangulation::indices]). Geometric predicates are parameters. *)
From Coq Require Import List Arith Bool.
From Verif Require Import Base Mesh Tess Buffer.
Import ListNotations.
Set Implicit Arguments.
Unset Strict Implicit.

(** monotone/mod.rs:14-22 *)
Inductive dir := DLeft | DRight | DNone.
Definition dir_eqb (a b : dir) : bool :=
  match a, b with DLeft, DLeft | DRight, DRight | DNone, DNone => true | _, _ => false end.

(** [slice.first()] and [slice.last()] of a stack that is stored with its last element first *)
Definition s_last (st : list nat) : res nat := unwrap (hd_error st).
Definition s_first (st : list nat) : res nat := unwrap (hd_error (rev st)).

Section Mono.
  Variable P : Type.
  Variable vs : list (P * nat). (** [vec2s] *)

  (** triangulation.rs:100-109 [insert_triangle_local] *)
  Definition put (ix : list nat) (a b c : nat) : res (list nat) :=
    let* x := at_ vs a in let* y := at_ vs b in let* z := at_ vs c in
    Ok (ix ++ [snd x; snd y; snd z]).

  (** [p.angle_tri(a, b) > 0] and [p.angle_tri(a, b) < 0] *)
  Variables (apos aneg : P -> P -> P -> bool).

  (** linear.rs:21-35; the last element of [stack] comes first *)
  Record lin := mkLin { l_stack : list nat; l_d : dir; l_left : option nat; l_right : option nat }.

  (** linear.rs:205-213 *)
  Definition lin_new (v : nat) : lin := mkLin [v] DNone (Some v) None.

  (** linear.rs:76-108: whether the loop stops at the triangle value, stack[l-1], stack[l-2];
      also delaunay.rs:292-317 *)
  Definition blocked (d : dir) (value s1 s2 : nat) : res bool :=
    let* p := at_ vs value in let* q := at_ vs s1 in let* r := at_ vs s2 in
    Ok (match d with DLeft => apos (fst p) (fst q) (fst r) | _ => aneg (fst p) (fst q) (fst r) end).
  (** linear.rs:59-112 [add_same_direction]: the loop and the final push *)
  Fixpoint lin_same (d : dir) (value : nat) (st ix : list nat) : res (list nat * list nat) :=
    match st with
    | s1 :: ((s2 :: _) as r) =>
        let* b := blocked d value s1 s2 in
        if b then Ok (value :: st, ix) else
        let* ix := match d with DLeft => put ix s1 value s2 | _ => put ix s1 s2 value end in
        lin_same d value r ix
    | _ => Ok (value :: st, ix)
    end.

  (** linear.rs:137-149: the fan over the stack, here from its first to its last element *)
  Fixpoint lin_fan (d : dir) (value : nat) (st ix : list nat) : res (list nat) :=
    match st with
    | s1 :: ((s2 :: _) as r) =>
        let* ix := match d with DLeft => put ix s1 value s2 | _ => put ix s1 s2 value end in
        lin_fan d value r ix
    | _ => Ok ix
    end.

  (** linear.rs:119-158 [add_opposite_direction] *)
  Definition lin_opposite (s : lin) (value : nat) (d : dir) (ix : list nat) : res (lin * list nat) :=
    assert (negb (dir_eqb (l_d s) d))
    (match l_stack s with
     | [] => Panic
     | [x] => Ok (mkLin [value; x] d (l_left s) (l_right s), ix)
     | last :: _ =>
         let* ix := lin_fan d value (rev (l_stack s)) ix in
         Ok (mkLin [value; last] d (l_left s) (l_right s), ix)
     end).

  (** linear.rs:164-187 [add] *)
  Definition lin_add (s : lin) (value : nat) (d : dir) (ix : list nat) : res (lin * list nat) :=
    let* r := (if dir_eqb (l_d s) DNone then
                 assert (length (l_stack s) =? 1)
                 (Ok (mkLin (value :: l_stack s) d (l_left s) (l_right s), ix))
               else if dir_eqb (l_d s) d then
                 assert (1 <=? length (l_stack s))
                 (let* r := lin_same d value (l_stack s) ix in
                  Ok (mkLin (fst r) (l_d s) (l_left s) (l_right s), snd r))
               else lin_opposite s value d ix) in
    assert (dir_eqb (l_d (fst r)) d) (Ok r).

  (** linear.rs:268-295 *)
  Definition lin_right (s : lin) (value : nat) (ix : list nat) : res (lin * list nat) :=
    lin_add (mkLin (l_stack s) (l_d s) (l_left s) (Some value)) value DRight ix.
  Definition lin_left (s : lin) (value : nat) (ix : list nat) : res (lin * list nat) :=
    lin_add (mkLin (l_stack s) (l_d s) (Some value) (l_right s)) value DLeft ix.

  (** linear.rs:298-302 [finish], 195-197 [is_done] *)
  Definition lin_finish (s : lin) (ix : list nat) : res (list nat) :=
    assert (length (l_stack s) <=? 2) (Ok ix).

  (** linear.rs:215-228 [last_opposite]; also delaunay.rs:436-448 *)
  Definition opposite_of (d : dir) (st : list nat) (left right : option nat) : res nat :=
    let* r := match d with
              | DNone => assert (is_none right) (unwrap left)
              | DRight => unwrap left
              | DLeft => unwrap right
              end in
    let* f := s_first st in
    assert (r =? f) (Ok r).
  Definition lin_last_opposite (s : lin) : res nat := opposite_of (l_d s) (l_stack s) (l_left s) (l_right s).

  (** linear.rs:231-233 *)
  Definition lin_is_right (s : lin) : bool := dir_eqb (l_d s) DRight.

  (** linear.rs:236-266 [sanity_check]; also delaunay.rs:454-484. [fx] is the stack of the fixup chain. *)
  Definition sanity_of (d : dir) (st : list nat) (ls rs : nat) (fx : option (list nat)) : res unit :=
    let* f := s_first st in
    let* l := s_last st in
    match d with
    | DNone => assert ((length st =? 1) && (ls =? f) && (rs =? f)) (Ok tt)
    | DLeft =>
        assert (2 <=? length st)
        (match fx with
         | Some fs => let* ff := s_first fs in assert ((2 <=? length fs) && (rs =? f) && (ls =? ff)) (Ok tt)
         | None => assert ((rs =? f) && (ls =? l)) (Ok tt)
         end)
    | DRight =>
        assert (2 <=? length st)
        (match fx with
         | Some fs => let* ff := s_first fs in assert ((2 <=? length fs) && (ls =? f) && (rs =? ff)) (Ok tt)
         | None => assert ((ls =? f) && (rs =? l)) (Ok tt)
         end)
    end.
  Definition lin_sanity (s : lin) (ls rs : nat) (fx : option lin) : res unit :=
    sanity_of (l_d s) (l_stack s) ls rs (option_map l_stack fx).

  (** ** dynamic.rs *)

  (** dynamic.rs:66-73; the last element of both lists comes first *)
  Record dyn := mkDyn { y_left : list nat; y_right : list nat; y_d : dir }.
  (** dynamic.rs:82-89 *)
  Definition dyn_new (v : nat) : dyn := mkDyn [v] [] DNone.
  (** dynamic.rs:91-108 *)
  Definition dyn_last_opposite (s : dyn) : res nat :=
    match y_d s with
    | DNone => match y_left s, y_right s with
               | [l], [] => Ok l
               | [], [r] => Ok r
               | _, _ => Panic
               end
    | DRight => unwrap (hd_error (y_left s))
    | DLeft => unwrap (hd_error (y_right s))
    end.
  (** dynamic.rs:111-113 *)
  Definition dyn_is_right (s : dyn) : bool := negb (dir_eqb (y_d s) DLeft).
  (** dynamic.rs:120-130 *)
  Definition dyn_right (s : dyn) (value : nat) (ix : list nat) : res (dyn * list nat) :=
    Ok (mkDyn (y_left s) (value :: y_right s) DRight, ix).
  Definition dyn_left (s : dyn) (value : nat) (ix : list nat) : res (dyn * list nat) :=
    Ok (mkDyn (value :: y_left s) (y_right s) DLeft, ix).

  (** dynamic.rs:133-146 [finish]; [small] and [weight] stand for
      [try_min_weight_small_direct] and [minweight_dynamic_direct], which append triangles. *)
  Variable small : list (P * nat) -> res (option (list tri3)).
  Variable weight : list (P * nat) -> res (list tri3).
  Definition flat3 (t : tri3) : list nat := match t with (a, b, c) => [a; b; c] end.
  Fixpoint gather (l : list nat) : res (list (P * nat)) :=
    match l with [] => Ok [] | i :: l => let* x := at_ vs i in let* r := gather l in Ok (x :: r) end.
  Definition dyn_finish (s : dyn) (ix : list nat) : res (list nat) :=
    let* us := gather (rev (y_left s) ++ y_right s) in
    let* o := small us in
    match o with
    | Some T => Ok (ix ++ flat_map flat3 T)
    | None => let* T := weight us in Ok (ix ++ flat_map flat3 T)
    end.

  (** ** delaunay.rs *)

  (** [p.convex(a, b)] and [circumcircle_contains(a, b, c, d)] *)
  Variables (convex : P -> P -> P -> bool) (incircle : P -> P -> P -> P -> bool).

  (** [HashMap] and [HashSet] over pairs: association lists, the most recent insertion first *)
  Definition pair_eqb (x y : nat * nat) : bool := (fst x =? fst y) && (snd x =? snd y).
  Definition pmap := list ((nat * nat) * (nat * nat)).
  Fixpoint p_get (m : pmap) (k : nat * nat) : option (nat * nat) :=
    match m with [] => None | (k', v) :: m => if pair_eqb k k' then Some v else p_get m k end.
  Definition p_remove (m : pmap) (k : nat * nat) : pmap := filter (fun e => negb (pair_eqb k (fst e))) m.
  Definition p_insert (m : pmap) (k v : nat * nat) : pmap := (k, v) :: p_remove m k.
  Definition has (s : list (nat * nat)) (k : nat * nat) : bool := existsb (pair_eqb k) s.
  (** [(a.min(b), a.max(b))] *)
  Definition key (a b : nat) : nat * nat := (Nat.min a b, Nat.max a b).

  (** delaunay.rs:75-90; the last element of [stack] comes first *)
  Record del := mkDel { e_stack : list nat; e_d : dir; e_con : list (nat * nat); e_opp : pmap;
                        e_left : option nat; e_right : option nat }.
  (** delaunay.rs:424-434 *)
  Definition del_new (v : nat) : del := mkDel [v] DNone [] [] (Some v) None.

  (** delaunay.rs:119-136 [stack_edge]; the work list has its last element first *)
  Definition stack_edge (con : list (nat * nat)) (w : list (nat * nat) * list (nat * nat)) (a b : nat)
    : res (list (nat * nat) * list (nat * nat)) :=
    assert (negb (a =? b))
    (let k := key a b in
     if has (fst w) k then Ok w else
     if has con k then Ok w else
     Ok (k :: fst w, (a, b) :: snd w)).

  (** delaunay.rs:199-255 [legalize_edge]; the boolean/quadruple is [Some((a, b, c, d))] *)
  Definition legalize_edge (opp : pmap) (ix : list nat) (a b : nat)
    : res (option (nat * nat) * pmap * list nat) :=
    match p_get opp (a, b) with
    | None => Ok (None, opp, ix)
    | Some (c, tab) =>
        let* p1 := at_ vs a in let* p2 := at_ vs b in let* p3 := at_ vs c in
        match p_get opp (b, a) with
        | None => Ok (None, opp, ix)
        | Some (d, tba) =>
            let* pt := at_ vs d in
            if negb (convex (fst p1) (fst p3) (fst pt)) || negb (convex (fst p2) (fst pt) (fst p3))
            then Ok (None, opp, ix) else
            if incircle (fst p1) (fst p2) (fst p3) (fst pt) then
              let* r := flip_indices ix (snd p1) (snd p2) tab tba in
              let* ix := unwrap r in
              let opp := p_remove (p_remove opp (a, b)) (b, a) in
              let opp := p_insert opp (a, d) (c, tab) in
              let opp := p_insert opp (d, c) (a, tab) in
              let opp := p_insert opp (c, a) (d, tab) in
              let opp := p_insert opp (b, c) (d, tba) in
              let opp := p_insert opp (c, d) (b, tba) in
              let opp := p_insert opp (d, b) (c, tba) in
              Ok (Some (c, d), opp, ix)
            else Ok (None, opp, ix)
        end
    end.

  (** delaunay.rs:160-172, the loop of [legalize_triangle] *)
  Fixpoint legalize_loop (fuel : nat) (con : list (nat * nat)) (w : list (nat * nat) * list (nat * nat))
      (opp : pmap) (ix : list nat) : res (pmap * list nat) :=
    match fuel with
    | 0 => Diverge
    | S fuel =>
        match snd w with
        | [] => Ok (opp, ix)
        | (a, b) :: rest =>
            let* r := legalize_edge opp ix a b in
            match r with
            | (None, opp, ix) => legalize_loop fuel con (fst w, rest) opp ix
            | (Some (c, d), opp, ix) =>
                let* w := stack_edge con (fst w, rest) c d in
                let* w := stack_edge con w a d in
                let* w := stack_edge con w b c in
                let* w := stack_edge con w b d in
                let* w := stack_edge con w a c in
                legalize_loop fuel con w opp ix
            end
        end
    end.
  (** delaunay.rs:143-173 [legalize_triangle] *)
  Definition legalize_triangle (con : list (nat * nat)) (opp : pmap) (ix : list nat) (x y z : nat)
    : res (pmap * list nat) :=
    let* w := stack_edge con ([], []) x y in
    let* w := stack_edge con w y z in
    let* w := stack_edge con w z x in
    legalize_loop (S (length vs * length vs)) con w opp ix.

  (** delaunay.rs:258-274 [insert_triangle_local] *)
  Definition del_put (dbg : bool) (opp : pmap) (ix : list nat) (a b c : nat) : res (pmap * list nat) :=
    let pos := length ix in
    let* ix := put ix a b c in
    assert (negb dbg || (is_none (p_get opp (a, b)) && is_none (p_get opp (b, c)) && is_none (p_get opp (c, a))))
    (Ok (p_insert (p_insert (p_insert opp (a, b) (c, pos)) (b, c) (a, pos)) (c, a) (b, pos), ix)).
  (** insertion followed by [legalize_triangle] with the corners [x], [y], [value] *)
  Definition del_emit (dbg : bool) (d : dir) (value : nat) (con : list (nat * nat)) (s : pmap * list nat) (x y s1 s2 : nat)
    : res (pmap * list nat) :=
    let* s := match d with DLeft => del_put dbg (fst s) (snd s) s1 value s2
                         | _ => del_put dbg (fst s) (snd s) s1 s2 value end in
    legalize_triangle con (fst s) (snd s) x y value.

  (** delaunay.rs:277-337 [add_same_direction] *)
  Fixpoint del_same (dbg : bool) (d : dir) (value : nat) (con : list (nat * nat)) (st : list nat) (s : pmap * list nat)
    : res (list nat * (pmap * list nat)) :=
    match st with
    | s1 :: ((s2 :: _) as r) =>
        let* b := blocked d value s1 s2 in
        if b then Ok (value :: st, s) else
        let* s := del_emit dbg d value con s s2 s1 s1 s2 in
        del_same dbg d value con r s
    | _ => Ok (value :: st, s)
    end.
  (** delaunay.rs:354-382, from the first to the last element of the stack *)
  Fixpoint del_fan (dbg : bool) (d : dir) (value : nat) (con : list (nat * nat)) (st : list nat) (s : pmap * list nat)
    : res (pmap * list nat) :=
    match st with
    | s1 :: ((s2 :: _) as r) =>
        let* s := del_emit dbg d value con s s1 s2 s1 s2 in
        del_fan dbg d value con r s
    | _ => Ok s
    end.
  (** delaunay.rs:339-390 [add_opposite_direction] *)
  Definition del_opposite (dbg : bool) (s : del) (value : nat) (d : dir) (ix : list nat) : res (del * list nat) :=
    assert (negb (dir_eqb (e_d s) d))
    (match e_stack s with
     | [] => Panic
     | [x] => Ok (mkDel [value; x] d (e_con s) (e_opp s) (e_left s) (e_right s), ix)
     | last :: _ =>
         let* r := del_fan dbg d value (e_con s) (rev (e_stack s)) (e_opp s, ix) in
         Ok (mkDel [value; last] d (e_con s) (fst r) (e_left s) (e_right s), snd r)
     end).

  (** delaunay.rs:183-185 *)
  Definition constrain (s : del) (a b : nat) : del :=
    mkDel (e_stack s) (e_d s) (key a b :: e_con s) (e_opp s) (e_left s) (e_right s).
  (** delaunay.rs:392-417 [add] *)
  Definition del_add (dbg : bool) (s : del) (value : nat) (d : dir) (ix : list nat) : res (del * list nat) :=
    if dir_eqb (e_d s) DNone then
      assert (length (e_stack s) =? 1)
      (let* f := s_first (e_stack s) in
       Ok (constrain (mkDel (value :: e_stack s) d (e_con s) (e_opp s) (e_left s) (e_right s)) f value, ix))
    else if dir_eqb (e_d s) d then
      let* l := s_last (e_stack s) in
      let s := constrain s l value in
      assert (1 <=? length (e_stack s))
      (let* r := del_same dbg d value (e_con s) (e_stack s) (e_opp s, ix) in
       Ok (mkDel (fst r) (e_d s) (e_con s) (fst (snd r)) (e_left s) (e_right s), snd (snd r)))
    else
      let* f := s_first (e_stack s) in
      del_opposite dbg (constrain s f value) value d ix.

  (** delaunay.rs:436-510 *)
  Definition del_last_opposite (s : del) : res nat := opposite_of (e_d s) (e_stack s) (e_left s) (e_right s).
  Definition del_is_right (s : del) : bool := dir_eqb (e_d s) DRight.
  Definition del_sanity (s : del) (ls rs : nat) (fx : option del) : res unit :=
    sanity_of (e_d s) (e_stack s) ls rs (option_map e_stack fx).
  Definition del_right (dbg : bool) (s : del) (value : nat) (ix : list nat) : res (del * list nat) :=
    del_add dbg (mkDel (e_stack s) (e_d s) (e_con s) (e_opp s) (e_left s) (Some value)) value DRight ix.
  Definition del_left (dbg : bool) (s : del) (value : nat) (ix : list nat) : res (del * list nat) :=
    del_add dbg (mkDel (e_stack s) (e_d s) (e_con s) (e_opp s) (Some value) (e_right s)) value DLeft ix.
  Definition del_finish (s : del) (ix : list nat) : res (list nat) :=
    assert (length (e_stack s) <=? 2) (Ok ix).
End Mono.

(** A monotone triangulator: the trait of monotone/mod.rs:28-70. *)
Record mono := mkMono {
  m_st : Type;
  m_new : nat -> m_st;
  m_left : m_st -> nat -> list nat -> res (m_st * list nat);
  m_right : m_st -> nat -> list nat -> res (m_st * list nat);
  m_finish : m_st -> list nat -> res (list nat);
  m_last_opposite : m_st -> res nat;
  m_is_right : m_st -> bool;
  m_sanity : m_st -> nat -> nat -> option m_st -> res unit
}.

Definition linear {P} (vs : list (P * nat)) apos aneg : mono :=
  @mkMono lin lin_new (lin_left vs apos aneg) (lin_right vs apos aneg) lin_finish lin_last_opposite lin_is_right lin_sanity.
(** dynamic.rs:115-117 [sanity_check] accepts everything *)
Definition dynamic {P} (vs : list (P * nat)) small weight : mono :=
  @mkMono dyn dyn_new dyn_left dyn_right (dyn_finish vs small weight) dyn_last_opposite dyn_is_right (fun _ _ _ _ => Ok tt).
Definition delaunay {P} (dbg : bool) (vs : list (P * nat)) apos aneg convex incircle : mono :=
  @mkMono del del_new (del_left vs apos aneg convex incircle dbg) (del_right vs apos aneg convex incircle dbg)
    del_finish del_last_opposite del_is_right del_sanity.

(** A whole run of one triangulator: [true] inserts on the left chain. *)
Definition m_step (M : mono) (s : m_st M * list nat) (o : bool * nat) : res (m_st M * list nat) :=
  if fst o then m_left (fst s) (snd o) (snd s) else m_right (fst s) (snd o) (snd s).
Fixpoint m_steps (M : mono) (ops : list (bool * nat)) (s : m_st M * list nat) : res (m_st M * list nat) :=
  match ops with [] => Ok s | o :: ops => let* s := m_step s o in m_steps ops s end.
Definition m_run (M : mono) (v : nat) (ops : list (bool * nat)) (ix : list nat) : res (list nat) :=
  let* s := m_steps ops (m_new M v, ix) in m_finish (fst s) (snd s).
