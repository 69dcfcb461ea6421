(** Specification of the arena: what a client can observe of a history of operations. *)
From Coq Require Import List Arith Bool.
From Verif Require Import Base DVec.
Import ListNotations.
Set Implicit Arguments.

(** What a client can ask for ... *)
Inductive req (A : Type) :=
| RPush (v : A)                 (* push *)
| RAlloc                        (* allocate *)
| RSet (i : nat) (v : A)        (* set *)
| RDel (i : nat)                (* delete *)
| RUpd (i : nat) (f : A -> A).  (* write through get_mut *)
Arguments RAlloc {A}.
Arguments RDel {A} i.

(** ... and what happened: the same with the ids that were handed out. *)
Inductive ev (A : Type) :=
| EPush (i : nat) (v : A) | EAlloc (i : nat) | ESet (i : nat) (v : A) | EDel (i : nat)
| EUpd (i : nat) (f : A -> A).
Arguments EAlloc {A} i.
Arguments EDel {A} i.

Section Spec.
  Context {A : Type}.

  (** The model run on one request / on a history. *)
  Definition arena_step (cap : nat) (d : dvec A) (r : req A) : res (dvec A * ev A) :=
    match r with
    | RPush v => let* (d', i) := d_push cap d v in Ok (d', EPush i v)
    | RAlloc => let* (d', i) := d_alloc cap d in Ok (d', EAlloc i)
    | RSet i v => let* d' := d_set cap d i v in Ok (d', ESet i v)
    | RDel i => let* d' := d_delete d i in Ok (d', EDel i)
    | RUpd i f => let* d' := d_update d i f in Ok (d', EUpd i f)
    end.
  Fixpoint arena_run (cap : nat) (d : dvec A) (rs : list (req A)) : res (dvec A * list (ev A)) :=
    match rs with
    | [] => Ok (d, [])
    | r :: rs =>
        let* (d1, e) := arena_step cap d r in
        let* (d2, es) := arena_run cap d1 rs in
        Ok (d2, e :: es)
    end.

  (** The abstract state: a map from ids to values, and the ids that were allocated but not yet
      set. *)
  Record astate := mkA { amap : nat -> option A; apend : list nat }.
  Definition ainit : astate := mkA (fun _ => None) [].
  Definition put (M : nat -> option A) (i : nat) (v : option A) : nat -> option A :=
    fun j => if j =? i then v else M j.
  Definition anext (s : astate) (e : ev A) : astate :=
    match e with
    | EPush i v => mkA (put (amap s) i (Some v)) (apend s)
    | EAlloc i => mkA (amap s) (i :: apend s)
    | ESet i v => mkA (put (amap s) i (Some v)) (remove Nat.eq_dec i (apend s))
    | EDel i => mkA (put (amap s) i None) (apend s)
    | EUpd i f => mkA (put (amap s) i (option_map f (amap s i))) (apend s)
    end.
  Definition afinal (s : astate) (tr : list (ev A)) : astate := fold_left anext tr s.

  (** Ids handed out are neither live nor already handed out; deletes and updates hit live ids. *)
  Definition ev_ok (s : astate) (e : ev A) : Prop :=
    match e with
    | EPush i _ | EAlloc i => amap s i = None /\ ~ In i (apend s)
    | ESet i _ => amap s i = None
    | EDel i | EUpd i _ => amap s i <> None
    end.
  (** The client protocol: [set] only ids obtained from [allocate] and not yet set. *)
  Definition ev_disc (s : astate) (e : ev A) : Prop :=
    match e with ESet i _ => In i (apend s) | _ => True end.

  Fixpoint all_ev (P : astate -> ev A -> Prop) (s : astate) (tr : list (ev A)) : Prop :=
    match tr with
    | [] => True
    | e :: tr => P s e /\ all_ev P (anext s e) tr
    end.

  (** Everything a client can read from the arena agrees with the map [M]. *)
  Definition observes (d : dvec A) (M : nat -> option A) : Prop :=
    (forall i, d_get d i = match M i with Some v => Ok v | None => Panic end) /\
    (forall i, d_has d i = match M i with Some _ => true | None => false end) /\
    (forall i, d_id d i = match M i with Some _ => Ok i | None => Panic end) /\
    (forall i v, In (i, v) (d_iter d) <-> M i = Some v) /\
    NoDup (map fst (d_iter d)).
End Spec.
