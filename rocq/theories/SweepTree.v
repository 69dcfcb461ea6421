(** Model of the search tree of the sweep line (/repo/src/tesselate/sweep/status.rs).

    std's [BTreeSet] is modelled by the list of its elements in ascending order; a search compares the key with the
    elements from the smallest on, as the code of the standard library does within a node. *)
From Coq Require Import List Arith Bool QArith.
From Verif Require Import Base Mesh Tess Monotone GeoSpec Geo Sweep.
Import ListNotations.
Set Implicit Arguments.
Unset Strict Implicit.

(** status.rs:10-20; [usize::MAX] is [None] *)
Record sorter := mkSo { so_left : option nat; so_from : pt; so_to : pt }.
(** status.rs:72-75 *)
Definition so_new (left : option nat) (from to : pt) : res sorter :=
  assert (Qle_bool (snd to) (snd from)) (Ok (mkSo left from to)).
(** status.rs:59-70 *)
Definition so_x (s : sorter) (y : Q) : Q :=
  let dy := (snd (so_to s) - snd (so_from s))%Q in
  if Qeq_bool dy 0 then fst (so_to s)
  else (fst (so_from s) + (fst (so_to s) - fst (so_from s)) * (y - snd (so_from s)) / dy)%Q.
(** status.rs:30-46 [partial_cmp] and [cmp]; rationals are always comparable *)
Definition so_cmp (a b : sorter) : comparison :=
  let c := if Qle_bool (snd (so_from b)) (snd (so_from a)) then snd (so_from b) else snd (so_from a) in
  (so_x b c ?= so_x a c)%Q.

(** std [BTreeSet::insert], [remove] and [range(key..).next()] *)
Fixpoint t_insert (s : sorter) (t : list sorter) : bool * list sorter :=
  match t with
  | [] => (true, [s])
  | e :: r => match so_cmp s e with
              | Gt => let (b, r) := t_insert s r in (b, e :: r)
              | Eq => (false, t)
              | Lt => (true, s :: t)
              end
  end.
Fixpoint t_remove (s : sorter) (t : list sorter) : bool * list sorter :=
  match t with
  | [] => (false, [])
  | e :: r => match so_cmp s e with
              | Gt => let (b, r) := t_remove s r in (b, e :: r)
              | Eq => (true, r)
              | Lt => (false, t)
              end
  end.
Fixpoint t_range (s : sorter) (t : list sorter) : option sorter :=
  match t with
  | [] => None
  | e :: r => match so_cmp s e with Gt => t_range s r | _ => Some e end
  end.

(** status.rs:181-198 [tree_sanity_check] *)
Fixpoint tree_sanity (at_y : Q) (last : option sorter) (t : list sorter) : res unit :=
  match t with
  | [] => Ok tt
  | e :: r =>
      let* _ := (match last with
                 | None => Ok tt
                 | Some l => let* la := so_new (so_left l) (so_x l at_y, at_y) (so_to l) in
                             assert (match so_cmp la e with Gt => false | _ => true end) (Ok tt)
                 end) in
      tree_sanity at_y (Some e) r
  end.

Section Tree.
  Variable vs : list (pt * nat).
  Variable M : mono.
  (** status.rs:77-84 [from_interval] *)
  Definition from_interval (v : interval M) : res sorter :=
    let* from := pos_of vs (fst (i_left v)) in let* to := pos_of vs (snd (i_left v)) in
    so_new (Some (snd (i_left v))) from to.
  (** status.rs:264-273 [init_btree] *)
  Definition init_btree (left : list (option (interval M))) : res (list sorter) :=
    foldM (fun t o => match o with
                      | None => Ok t
                      | Some v => let* s := from_interval v in Ok (snd (t_insert s t))
                      end) left [].
  (** status.rs:114-129 [insert] with the tree *)
  Definition bt_insert (dbg : bool) (x : status M * option (list sorter)) (v : interval M) : res (status M * option (list sorter)) :=
    let* _ := (if dbg then i_sanity v else Ok tt) in
    let* t := (match snd x with
               | None => Ok None
               | Some t => let* s := from_interval v in let (b, t) := t_insert s t in assert b (Ok (Some t))
               end) in
    let* st := s_insert false (fst x) v in
    Ok (st, t).
  (** status.rs:131-146 [remove_left] with the tree *)
  Definition bt_remove_left (x : status M * option (list sorter)) (k : nat) : res (option (interval M * (status M * option (list sorter)))) :=
    match nth_error (s_left (fst x)) k with
    | Some (Some v) =>
        let* t := (match snd x with
                   | None => Ok None
                   | Some t => let* s := from_interval v in let (b, t) := t_remove s t in assert b (Ok (Some t))
                   end) in
        let* r := set_at (s_right (fst x)) (snd (i_right v)) None in
        Ok (Some (v, (mkS (upd (s_left (fst x)) k None) r, t)))
    | _ => Ok None
    end.
  (** status.rs:152-171 [remove_right] with the tree *)
  Definition bt_remove_right (x : status M * option (list sorter)) (key : nat) : res (option (interval M) * (status M * option (list sorter))) :=
    let* k := at_ (s_right (fst x)) key in
    match k with
    | None => Ok (None, x)
    | Some k =>
        let r := upd (s_right (fst x)) key None in
        match nth_error (s_left (fst x)) k with
        | Some (Some v) =>
            let* t := (match snd x with None => Ok None | Some t => let* s := from_interval v in Ok (Some (snd (t_remove s t))) end) in
            Ok (Some v, (mkS (upd (s_left (fst x)) k None) r, t))
        | _ => Ok (None, (mkS (s_left (fst x)) r, snd x))
        end
    end.
  (** status.rs:220-261 [find_btree]; [dbg] is a debug build *)
  Definition find_btree (dbg : bool) (left : list (option (interval M))) (t : list sorter) (p : pt) : res (option nat) :=
    let* q := so_new None p p in
    let* _ := (if dbg then tree_sanity (snd p) None t else Ok tt) in
    let x := match t_range q t with None => None | Some s => so_left s end in
    let* _ := (if dbg then
                 let* l := find_from vs 0 left p in
                 assert (match x, l with Some a, Some b => a =? b | None, None => true | _, _ => false end) (Ok tt)
               else Ok tt) in
    match x with
    | None => Ok None
    | Some i =>
        let* o := at_ left i in
        match o with
        | None => Ok None
        | Some v => let* b := i_contains vs v p in Ok (if b then x else None)
        end
    end.
  (** status.rs:279-295 [find_by_position] for more than eight vertices. The code builds the tree at the first call
      and keeps it up to date ([bt_insert], [bt_remove_left], [bt_remove_right]); here it is built at each call. Both
      give the same tree, by [C90_status_insert], [C90_status_remove_left], [C90_status_remove_right] and [C90_unique]. *)
  Definition find_tree (dbg : bool) (st : status M) (i : nat) : res (option nat) :=
    let* p := pos_of vs i in
    let* t := init_btree (s_left st) in
    find_btree dbg (s_left st) t p.
  (** sweep.rs:20-76 for more than eight vertices *)
  Definition sweep_large (dbg : bool) (tol : Q) (ix : list nat) : res (ctx M) :=
    assert (3 <=? length vs)
    (let* es := mapM (classify_at vs tol) (seq 0 (length vs)) in
     sweep dbg (find_tree dbg) (length vs) (sort_events vs es) ix).
End Tree.
