(** Model of the soft-delete arena, /repo/src/util/deletable.rs. *)
From Coq Require Import List Arith Lia Bool.
From Verif Require Import Base.
Import ListNotations.
Set Implicit Arguments.

(** src/util/deletable.rs:20-25 [DeletableVector].
    A slot is [None] iff [is_deleted()] (its id field is the sentinel); a live slot stores the
    element's own id field and the rest of the element. Simplification: the stale contents of
    deleted slots are dropped; every accessor asserts [!is_deleted()] first, so they cannot be
    observed. [free] is the [deleted] stack, top first ([Vec::pop] / [Vec::push]). *)
Record dvec (A : Type) := mkD { slots : list (option (nat * A)); free : list nat }.
Arguments mkD {A} _ _.

Section DVec.
  Context {A : Type}.
  (** [IndexType::max()] of the index type, src/math/index_type.rs. *)
  Variable cap : nat.

  (** src/util/deletable.rs:29-34 *)
  Definition d_new : dvec A := mkD [] [].
  (** src/util/deletable.rs:37-40 *)
  Definition d_clear (d : dvec A) : dvec A := mkD [] [].

  (** src/util/deletable.rs:53-61; also the read part of 70-78 *)
  Definition d_get (d : dvec A) (i : nat) : res A :=
    match nth_error (slots d) i with
    | Some (Some (_, v)) => Ok v
    | _ => Panic
    end.

  (** The id field of the element stored at index [i]. *)
  Definition d_id (d : dvec A) (i : nat) : res nat :=
    match nth_error (slots d) i with
    | Some (Some (k, _)) => Ok k
    | _ => Panic
    end.

  (** src/util/deletable.rs:64-67 *)
  Definition d_has (d : dvec A) (i : nat) : bool :=
    match nth_error (slots d) i with
    | Some (Some _) => true
    | _ => false
    end.

  (** src/util/deletable.rs:43-45; elements with their own id *)
  Definition d_iter (d : dvec A) : list (nat * A) :=
    flat_map (fun s => match s with Some p => [p] | None => [] end) (slots d).

  (** src/util/deletable.rs:81-83 *)
  Definition d_len (d : dvec A) : nat := length (slots d) - length (free d).

  (** src/util/deletable.rs:86-88 *)
  Definition d_cap (d : dvec A) : nat := length (slots d).

  (** src/util/deletable.rs:91-106. The value [v] carries no id, so the first assert holds by
      typing. [I::new(len)] asserts [len <= cap], [set_id] asserts [id <> cap]. *)
  Definition d_push (d : dvec A) (v : A) : res (dvec A * nat) :=
    match free d with
    | i :: fr =>
        assert (negb (i =? cap))
          (if i <? length (slots d)
           then Ok (mkD (upd (slots d) i (Some (i, v))) fr, i) else Panic)
    | [] =>
        let i := length (slots d) in
        assert (i <=? cap)
          (assert (negb (i =? cap)) (Ok (mkD (slots d ++ [Some (i, v)]) [], i)))
    end.

  (** src/util/deletable.rs:109-121 *)
  Definition d_set (d : dvec A) (i : nat) (v : A) : res (dvec A) :=
    match nth_error (slots d) i with
    | Some None => assert (negb (i =? cap)) (Ok (mkD (upd (slots d) i (Some (i, v))) (free d)))
    | _ => Panic
    end.

  (** src/util/deletable.rs:124-127; [delete()] asserts that the element is live *)
  Definition d_delete (d : dvec A) (i : nat) : res (dvec A) :=
    match nth_error (slots d) i with
    | Some (Some _) => Ok (mkD (upd (slots d) i None) (i :: free d))
    | _ => Panic
    end.

  (** src/util/deletable.rs:132-141. [I::new] only asserts [<= cap]. *)
  Definition d_alloc (d : dvec A) : res (dvec A * nat) :=
    match free d with
    | i :: fr => Ok (mkD (slots d) fr, i)
    | [] =>
        let i := length (slots d) in
        assert (i <=? cap) (Ok (mkD (slots d ++ [None]) [], i))
    end.

  (** [get_mut] followed by an assignment through the reference,
      src/util/deletable.rs:70-78. *)
  Definition d_update (d : dvec A) (i : nat) (f : A -> A) : res (dvec A) :=
    match nth_error (slots d) i with
    | Some (Some (k, v)) => Ok (mkD (upd (slots d) i (Some (k, f v))) (free d))
    | _ => Panic
    end.
End DVec.
