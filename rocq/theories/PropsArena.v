(** Properties C01, C02, C53: the soft-delete arena (src/util/deletable.rs). *)
From Coq Require Import List Arith Bool.
From Verif Require Import Base DVec ArenaSpec ArenaProofs.
Import ListNotations.

(** C01. For every history of requests that ran without panic and respected the
    allocate/set protocol: ids handed out were neither live nor pending, deletions and updates hit
    live ids, and everything readable agrees with the map obtained by replaying the history. *)
Theorem C01_arena_refines_map :
  forall (A : Type) (cap : nat) (rs : list (req A)) d tr,
    arena_run cap (@d_new A) rs = Ok (d, tr) ->
    all_ev ev_disc ainit tr ->
    all_ev ev_ok ainit tr /\ observes d (amap (afinal ainit tr)).
Proof. exact @arena_history. Qed.
Print Assumptions C01_arena_refines_map.

Example C01_example :
  let rs := [RPush 10; RPush 11; RPush 12; RDel 1; RDel 0; RAlloc; RPush 20; RUpd 2 (fun x => x + 1); RSet 0 30] in
  exists d tr, arena_run 100 (@d_new nat) rs = Ok (d, tr) /\ all_ev ev_disc ainit tr /\
    d_iter d = [(0, 30); (1, 20); (2, 13)].
Proof. do 2 eexists. split; [vm_compute; reflexivity|]. cbn. intuition. Qed.

(** The protocol is needed: [set] accepts an id that was deleted but not allocated, and the next
    [push] hands the same, now live, id out again and overwrites its value. *)
Theorem C01_set_without_allocate_refuted :
  exists (rs : list (req nat)) d tr, arena_run 100 (@d_new nat) rs = Ok (d, tr) /\
    tr = [EPush 0 1; EDel 0; ESet 0 2; EPush 0 3] /\ ~ all_ev ev_ok ainit tr.
Proof.
  exists [RPush 1; RDel 0; RSet 0 2; RPush 3]. do 2 eexists.
  split; [vm_compute; reflexivity|]. split; [reflexivity|]. cbn. intuition discriminate.
Qed.
Print Assumptions C01_set_without_allocate_refuted.

(** C02. [len] counts the yielded elements (plus ids allocated but not yet set); the number of
    slots never shrinks, grows by at most one, and does not grow while a slot is reusable. *)
Theorem C02_len_counts_iter :
  forall (A : Type) (cap : nat) (rs : list (req A)) d tr,
    arena_run cap (@d_new A) rs = Ok (d, tr) -> all_ev ev_disc ainit tr ->
    d_len d = length (d_iter d) + length (apend (afinal ainit tr)) /\ d_len d <= d_cap d.
Proof. exact @arena_len. Qed.
Print Assumptions C02_len_counts_iter.

Theorem C02_capacity :
  forall (A : Type) (cap : nat) (rs : list (req A)) d tr r d' e,
    arena_run cap (@d_new A) rs = Ok (d, tr) -> all_ev ev_disc ainit tr ->
    arena_step cap d r = Ok (d', e) ->
    d_cap d <= d_cap d' <= S (d_cap d) /\ (d_len d < d_cap d -> d_cap d' = d_cap d).
Proof. exact @arena_capacity. Qed.
Print Assumptions C02_capacity.

Example C02_example :
  exists d tr, arena_run 100 (@d_new nat) [RPush 10; RPush 11; RPush 12; RDel 1; RDel 0; RAlloc] = Ok (d, tr) /\
    all_ev ev_disc ainit tr /\ d_len d = 2 /\ length (d_iter d) = 1 /\ d_cap d = 3 /\ apend (afinal ainit tr) = [0].
Proof. do 2 eexists. split; [vm_compute; reflexivity|]. cbn. intuition. Qed.

(** C53. After every history, [push] either returns a fresh id below the sentinel under which the
    value is then readable, or panics because at least [cap] ids are in use. *)
Theorem C53_push_never_aliases :
  forall (A : Type) (cap : nat) (rs : list (req A)) d tr v,
    arena_run cap (@d_new A) rs = Ok (d, tr) -> all_ev ev_disc ainit tr ->
    match d_push cap d v with
    | Ok (d', i) => i < cap /\ d_get d i = Panic /\ d_get d' i = Ok v
    | Panic => cap <= d_len d
    | Diverge => False
    end.
Proof. exact @arena_push_exhausted. Qed.
Print Assumptions C53_push_never_aliases.

Example C53_example :
  exists d tr, arena_run 3 (@d_new nat) [RPush 1; RPush 2; RPush 3] = Ok (d, tr) /\
    all_ev ev_disc ainit tr /\ d_push 3 d 4 = Panic.
Proof. do 2 eexists. split; [vm_compute; reflexivity|]. cbn. intuition. Qed.

(** [allocate] alone does hand out the sentinel when the index type is exhausted. *)
Theorem C53_allocate_returns_sentinel_refuted :
  exists cap (rs : list (req nat)) d tr, arena_run cap (@d_new nat) rs = Ok (d, tr) /\
    all_ev ev_disc ainit tr /\ In (EAlloc cap) tr.
Proof.
  exists 2, [RPush 1; RPush 2; RAlloc]. do 2 eexists. split; [vm_compute; reflexivity|]. cbn. intuition.
Qed.
Print Assumptions C53_allocate_returns_sentinel_refuted.
