(** Examples for the search tree of the sweep line: two upright strips. *)
From Coq Require Import List Arith Bool QArith Sorting.Sorted Lqa Lia.
From Verif Require Import Base Mesh Tess Monotone GeoSpec Geo Sweep SweepTree SweepTreeSpec SweepTreeProofs.
Import ListNotations.
Local Open Scope Q_scope.

Definition strips : list (pt * nat) :=
  [((0, 2), 0%nat); ((0, 0), 1%nat); ((1, 0), 2%nat); ((1, 2), 3%nat); ((3, 2), 4%nat); ((3, 0), 5%nat); ((4, 0), 6%nat); ((4, 2), 7%nat); ((9, 0), 8%nat)].
Definition strip1 (M : mono) : interval M := mkI 0 (0, 1)%nat (3, 2)%nat (m_new M 0) None.
Definition strip2 (M : mono) : interval M := mkI 4 (4, 5)%nat (7, 6)%nat (m_new M 4) None.
Definition two (M : mono) : list (option (interval M)) := [None; Some (strip1 M); None; None; None; Some (strip2 M); None; None; None].
Definition edge1 : sorter := mkSo (Some 1%nat) (0, 2) (0, 0).
Definition edge2 : sorter := mkSo (Some 5%nat) (3, 2) (3, 0).

Lemma two_stored M k v : nth_error (two M) k = Some (Some v) -> (k = 1%nat /\ v = strip1 M) \/ (k = 5%nat /\ v = strip2 M).
Proof. do 9 (destruct k as [|k]; [cbn; intros E; try discriminate; injection E as <-; auto|]). destruct k; discriminate. Qed.
Lemma edges_apart : apart edge1 edge2.
Proof. intros x y (t & _ & _ & X & _) (t' & _ & _ & X' & _). cbn in *. lra. Qed.
Lemma edges_init M : exists t, init_btree strips (two M) = Ok t /\ tree_of strips (two M) t /\ pairwise t /\ ordered 1 t.
Proof.
  apply init_ok.
  - intros k v N. apply two_stored in N as [[-> ->]|[-> ->]]; (split; [reflexivity|]); [exists edge1|exists edge2]; (split; [reflexivity|]); split; cbn; lra.
  - intros k v s k' v' s' N N' NE F F'. apply two_stored in N as [[-> ->]|[-> ->]]; apply two_stored in N' as [[-> ->]|[-> ->]]; try congruence;
      cbn in F, F'; injection F as <-; injection F' as <-; [exact edges_apart|exact (apart_sym edges_apart)].
Qed.
Lemma two_disjoint M : disjoint_at strips (two M) 1.
Proof.
  split.
  - intros k v N. apply two_stored in N as [[-> ->]|[-> ->]]; (split; [reflexivity|]); do 2 eexists; (split; [split; reflexivity|]); vm_compute; discriminate.
  - intros k v k' v' xl xr xl' xr' N N' NE [L R] [L' R']. apply two_stored in N as [[-> ->]|[-> ->]]; apply two_stored in N' as [[-> ->]|[-> ->]]; try congruence;
      cbn in L, R, L', R'; injection L as <-; injection R as <-; injection L' as <-; injection R' as <-; [left|right]; vm_compute; reflexivity.
Qed.
(** the hypotheses of the theorems hold here, at a position inside the second strip and at one between the two *)
Example found M : exists t, init_btree strips (two M) = Ok t /\ find_btree strips true (two M) t (7 # 2, 1) = Ok (Some 5%nat).
Proof.
  destruct (edges_init M) as (t & E & T & P & O). exists t. split; auto.
  apply (@find_debug strips M (two M) t (7 # 2, 1) 5%nat (strip2 M) (two_disjoint M) T P O); reflexivity.
Qed.
Example between M : exists t, init_btree strips (two M) = Ok t /\ find_btree strips true (two M) t (2, 1) = Panic /\ find_btree strips false (two M) t (2, 1) = Ok None.
Proof.
  destruct (edges_init M) as (t & E & T & P & O). exists t. split; auto.
  eapply (@find_outside strips M (two M) t (2, 1) 1%nat (strip1 M) _ _ (two_disjoint M) T P O); [reflexivity|split; reflexivity|vm_compute; discriminate|reflexivity].
Qed.
Definition rights : list (option nat) := [None; None; Some 1%nat; None; None; None; Some 5%nat; None; None].
Lemma two_in_step M t : tree_of strips (two M) t -> pairwise t -> ordered 1 t -> in_step strips 1 (mkS (two M) rights, Some t).
Proof.
  intros T P O. split; cbn [fst snd s_left].
  - intros k v N. apply two_stored in N as [[-> ->]|[-> ->]]; reflexivity.
  - intros t' E. injection E as <-. auto.
Qed.
Example taken_out M : exists t t' r, init_btree strips (two M) = Ok t /\ in_step strips 1 (mkS (two M) rights, Some t) /\
  bt_remove_left strips (mkS (two M) rights, Some t) 5 = Ok (Some (strip2 M, (mkS (upd (two M) 5 None) r, t'))).
Proof.
  destruct (edges_init M) as (t & E & T & P & O). pose proof (two_in_step _ _ T P O) as I. exists t.
  destruct (remove_left_step I (k := 5%nat) (v := strip2 M)) as (t' & R & _); [reflexivity|cbn; lia|]. do 2 eexists. split; [exact E|]. split; [exact I|exact R].
Qed.
