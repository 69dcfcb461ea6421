(** Observations on a run of the sweep: how often a chain was started and how often two were merged. *)
From Coq Require Import List Arith Bool Permutation.
From Verif Require Import Base Monotone Sweep.
Import ListNotations.
Set Implicit Arguments.
Unset Strict Implicit.

(** every interval has been closed *)
Definition all_closed (M : mono) (st : status M) : Prop := forall k v, nth_error (s_left st) k <> Some (Some v).

Section Tally.
  Variables (M : mono) (dbg : bool) (find : status M -> nat -> res (option nat)).
  Definition present {A} (l : list (option A)) (i : nat) : bool :=
    match nth_error l i with Some (Some _) => true | _ => false end.
  (** no interval ends at the vertex and none contains it *)
  Definition isolated (c : ctx M) (e : event) : bool :=
    negb (present (s_left (fst c)) (v_here e)) && negb (present (s_right (fst c)) (v_here e)) &&
    match find (fst c) (v_here e) with Ok None => true | _ => false end.
  (** two different intervals end at the vertex *)
  Definition between (c : ctx M) (e : event) : bool :=
    present (s_right (fst c)) (v_here e) &&
    match nth_error (s_left (fst c)) (v_here e) with Some (Some v) => negb (is_end v) | _ => false end.
  Definition starts (c : ctx M) (e : event) : nat :=
    match v_type e with VStart => 1 | VRegular | VUndecisive => if isolated c e then 1 else 0 | _ => 0 end.
  Definition merges (c : ctx M) (e : event) : nat :=
    match v_type e with VMerge => 1 | VUndecisive => if between c e then 1 else 0 | _ => 0 end.
  Fixpoint tally (f : ctx M -> event -> nat) (es : list event) (c : ctx M) : nat :=
    match es with
    | [] => 0
    | e :: es => f c e + match sw_event dbg find c e with Ok c => tally f es c | _ => 0 end
    end.
End Tally.

(** a queue that contains every vertex once, with its neighbours; order and types are arbitrary *)
Definition queue_of (n : nat) (es : list event) : Prop :=
  Permutation (map v_here es) (seq 0 n) /\
  Forall (fun e => v_prev e = prev_of n (v_here e) /\ v_next e = next_of n (v_here e)) es.
