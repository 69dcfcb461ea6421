(** Proofs about rotation of lists, breadth-first search and the network matrices. *)
From Coq Require Import List Arith Lia ZArith Bool Permutation.
From Verif Require Import Base DVec DVecFacts Mesh MeshMore Spec Rep Cycle Traverse MeshSpec MeshProofs MeshProofs2 MeshFacts Topo TopoSpec.
Import ListNotations.
Set Implicit Arguments.
Unset Strict Implicit.

Lemma mem_in x l : mem x l = true <-> In x l.
Proof.
  unfold mem. rewrite existsb_exists. split.
  - intros (y & I & E). apply Nat.eqb_eq in E. subst. auto.
  - intros I. exists x. split; auto. apply Nat.eqb_refl.
Qed.

Lemma list_eqb_eq a b : list_eqb a b = true <-> a = b.
Proof.
  revert b. induction a as [|x a IH]; destruct b as [|y b]; cbn; try (split; congruence).
  rewrite andb_true_iff, Nat.eqb_eq, IH. split; [intros [-> ->]; auto|]. intros E; injection E; auto.
Qed.

(** ** Rotation *)
Lemma idx_nth (l : list nat) i : i < length l -> idx l i = Ok (nth i l 0).
Proof. intros H. unfold idx. rewrite (nth_error_nth' l 0 H). reflexivity. Qed.

Lemma nth_skip {A} (l : list A) i k d : nth k (skipn i l) d = nth (i + k) l d.
Proof. revert l. induction i; intros [|x l]; cbn; auto. destruct k; auto. Qed.
Lemma nth_first {A} (l : list A) i k d : k < i -> nth k (firstn i l) d = nth k l d.
Proof. revert l k. induction i; intros [|x l] k H; cbn; auto; [lia|]. destruct k; auto. apply IHi. lia. Qed.

Lemma rot_nth (l : list nat) i : i <= length l -> l <> [] ->
  map (fun k => nth ((i + k) mod length l) l 0) (seq 0 (length l)) = skipn i l ++ firstn i l.
Proof.
  intros Hi Hl. assert (Hn : length l <> 0) by (destruct l; cbn; congruence).
  apply nth_ext with (d := 0) (d' := 0).
  { rewrite map_length, seq_length, app_length, skipn_length, firstn_length. lia. }
  rewrite map_length, seq_length. intros k Hk.
  rewrite (nth_indep _ 0 ((fun k => nth ((i + k) mod length l) l 0) 0)) by (rewrite map_length, seq_length; auto).
  rewrite (map_nth (fun k => nth ((i + k) mod length l) l 0)), seq_nth by auto. cbn [Nat.add].
  destruct (lt_dec (i + k) (length l)).
  - rewrite Nat.mod_small by auto. rewrite app_nth1 by (rewrite skipn_length; lia).
    now rewrite nth_skip.
  - replace ((i + k) mod length l) with (i + k - length l).
    2:{ symmetry. replace (i + k) with (i + k - length l + 1 * length l) at 1 by lia. rewrite Nat.mod_add by auto.
        apply Nat.mod_small. lia. }
    rewrite app_nth2 by (rewrite skipn_length; lia). rewrite skipn_length.
    rewrite nth_first by lia. f_equal. lia.
Qed.

Lemma rot_search_ok a b is : length a = length b -> (forall i, In i is -> i < length a) ->
  exists r, rot_search a b is = Ok r /\
    (r = true <-> exists i, In i is /\ skipn i a ++ firstn i a = b).
Proof.
  intros L. induction is as [|i is IH]; intros H; cbn [rot_search].
  - exists false. split; auto. split; [discriminate|]. intros (i & [] & _).
  - assert (Hi : i < length a) by (apply H; left; auto).
    assert (Hb : 0 < length b) by lia.
    rewrite (idx_nth Hi), (idx_nth Hb). cbn [bind].
    destruct IH as (r & E & R); [intros; apply H; right; auto|].
    assert (NE : a <> []) by (intros ->; cbn in Hi; lia).
    assert (Hd : skipn i a ++ firstn i a = b -> nth i a 0 = nth 0 b 0).
    { intros <-. rewrite app_nth1 by (rewrite skipn_length; lia). rewrite nth_skip. f_equal. lia. }
    destruct (nth i a 0 =? nth 0 b 0) eqn:Q; cbn [negb].
    + rewrite (@mapM_ok _ _ _ (fun k => nth ((i + k) mod length a) a 0)).
      2:{ intros k _. apply idx_nth. apply Nat.mod_upper_bound. destruct a; cbn in *; lia. }
      cbn [bind]. rewrite rot_nth by (auto; lia). destruct (list_eqb _ b) eqn:Q2.
      * exists true. split; auto. apply list_eqb_eq in Q2. split; auto. intros _. exists i. split; auto. left; auto.
      * exists r. split; auto. rewrite R. split; intros (j & I & J); exists j; split; auto; try (right; auto; fail).
        destruct I as [->|]; auto. apply list_eqb_eq in J. congruence.
    + exists r. split; auto. rewrite R. split; intros (j & I & J); exists j; split; auto; try (right; auto; fail).
      destruct I as [->|]; auto. apply Hd in J. apply Nat.eqb_neq in Q. congruence.
Qed.

Lemma rotation_at a b : a <> [] -> (rotation a b <-> exists i, i < length a /\ skipn i a ++ firstn i a = b).
Proof.
  intros NE. split.
  - intros (l1 & l2 & -> & ->). destruct l2 as [|x l2].
    + exists 0. rewrite app_nil_r in *. split; [destruct l1; cbn; [congruence|lia]|]. cbn. now rewrite app_nil_r.
    + exists (length l1). rewrite app_length. split; [cbn; lia|].
      rewrite skipn_app, firstn_app, skipn_all, firstn_all, Nat.sub_diag. cbn. now rewrite app_nil_r.
  - intros (i & _ & <-). exists (firstn i a), (skipn i a). split; auto. now rewrite firstn_skipn.
Qed.

Lemma equal_up_to_rotation_ok a b :
  exists r, equal_up_to_rotation a b = Ok r /\ (r = true <-> a <> [] /\ rotation a b).
Proof.
  unfold equal_up_to_rotation. destruct (length a =? length b) eqn:L; cbn [negb].
  - apply Nat.eqb_eq in L. destruct (@rot_search_ok a b (seq 0 (length a)) L) as (r & E & R).
    { intros i I. apply in_seq in I. lia. }
    exists r. split; auto. rewrite R. split.
    + intros (i & I & J). apply in_seq in I. assert (NE : a <> []) by (intros ->; cbn in I; lia).
      split; auto. apply rotation_at; auto. exists i. split; [lia|auto].
    + intros [NE J]. apply rotation_at in J as (i & I & J); auto. exists i. split; auto. apply in_seq. lia.
  - exists false. split; auto. split; [discriminate|]. intros [_ (l1 & l2 & -> & ->)].
    rewrite !app_length in L. apply Nat.eqb_neq in L. lia.
Qed.

(** ** Breadth-first search *)
Section BFS.
  Context {VP EP FP : Type}.
  Implicit Types (m : mesh VP EP FP) (c : cfg) (g : graph VP EP FP).

  Lemma adjacent_sym g u v : WF g -> adjacent g u v -> adjacent g v u.
  Proof.
    intros W (e & L & <- & <-). exists (tw g e). split; [apply W; auto|]. split; auto. rewrite (wf_twtw W); auto.
  Qed.
  Lemma adjacent_live g u v : WF g -> adjacent g u v -> lvv g u = true /\ lvv g v = true.
  Proof. intros W (e & L & <- & <-). split; apply W; auto. apply W; auto. Qed.

  Lemma neighbors_ok c m v : wf m -> lvv (abs m) v = true ->
    exists ns, v_neighbors c m v = Ok ns /\ forall w, In w ns <-> adjacent (abs m) v w.
  Proof.
    intros Wm L. destruct (vertex_wheel c Wm L) as (l & _ & _ & OL & _ & _ & E). eexists. split; [exact E|].
    intros w. rewrite in_map_iff. split.
    - intros (x & <- & I). apply OL in I as [LX OX]. exists x. auto.
    - intros (x & LX & OX & TX). exists x. split; auto. apply OL. auto.
  Qed.

  (** walks of length [k] (number of edges) from [u] to [v] *)
  Fixpoint steps g (k : nat) (u v : nat) : Prop :=
    match k with
    | 0 => u = v
    | S k => exists w, steps g k u w /\ adjacent g w v
    end.

  Section Inv.
    Variables (m : mesh VP EP FP) (Wm : wf m) (c : cfg) (v0 v1 : nat).
    Let g := abs m.
    Hypothesis L1 : lvv g v1 = true.
    Hypothesis ne : v0 <> v1.

    (** [L] is the level of a visited vertex *)
    Record inv (q vis : list nat) (pred : list (nat * option nat)) (L : nat -> nat) : Prop := {
      i_nd : NoDup vis;
      i_live : forall x, In x vis -> lvv g x = true;
      i_key : forall x, In x vis <-> assoc x pred <> None;
      i_len : length pred = length vis;
      i_root : In v1 vis /\ L v1 = 0;
      i_pred : forall x, In x vis ->
        match assoc x pred with
        | Some (Some p) => In p vis /\ adjacent g p x /\ L x = S (L p) /\ x <> v1
        | Some None => x = v1
        | None => False
        end;
      i_bound : forall x, In x vis -> L x < length vis;
      i_q : forall x, In x q -> In x vis;
      i_qnd : NoDup q;
      i_v0 : ~ In v0 vis
    }.

    (** outside the queue, neighbours are visited *)
    Definition done (q vis : list nat) (L : nat -> nat) : Prop :=
      forall u w, In u vis -> ~ In u q -> adjacent g u w -> In w vis /\ L w <= S (L u).
    (** levels of the queue *)
    Definition level (q vis : list nat) (L : nat -> nat) : Prop :=
      forall a q', q = a :: q' ->
        (forall x, In x q -> L a <= L x <= S (L a)) /\
        (forall u, In u vis -> ~ In u q -> L u <= L a).
    Fixpoint mono (L : nat -> nat) (q : list nat) : Prop :=
      match q with a :: ((b :: _) as r) => L a <= L b /\ mono L r | _ => True end.

    Lemma closest q vis pred L k x : inv q vis pred L -> done q vis L ->
      (forall y, In y q -> k <= L y) -> steps g k v1 x -> In x vis /\ L x <= k.
    Proof.
      intros I D. revert x. induction k as [|k IH]; intros x B S; cbn in S.
      - subst x. destruct (i_root I) as [A ->]. auto.
      - destruct S as (w & S & A). destruct (IH w) as [Iw Lw]; auto. { intros y Y. apply B in Y. lia. }
        assert (NQ : ~ In w q) by (intros Q; apply B in Q; lia).
        destruct (D _ _ Iw NQ A). split; auto. lia.
    Qed.

    Definition upL (L : nat -> nat) (x k : nat) : nat -> nat := fun y => if y =? x then k else L y.

    Lemma follow_ok q vis pred L : inv q vis pred L -> forall x fuel, In x vis -> L x < fuel ->
      exists p, follow fuel pred (Some x) = Ok p /\ length p = S (L x) /\ walk_from_to g x v1 p.
    Proof.
      intros I x fuel. revert x. induction fuel as [|fuel IH]; intros x Ix B; [lia|].
      pose proof (i_pred I Ix) as P. cbn [follow]. destruct (assoc x pred) as [[p|]|] eqn:E; [| |contradiction].
      - destruct P as (Ip & A & Lx & _). cbn [unwrap bind]. destruct (IH p) as (r & F & Lr & H1 & (l0 & H2) & H3); auto; [lia|].
        cbn [follow] in F. destruct fuel; [lia|]. rewrite F. cbn [bind]. exists (x :: r). split; auto.
        split; [cbn; lia|]. split; [auto|]. split; [exists (x :: l0); cbn; congruence|].
        destruct r as [|y r]; [discriminate|]. cbn in H1. injection H1 as ->. cbn [walk]. split; auto.
        apply adjacent_sym; auto. apply (wf_abs Wm).
      - subst x. cbn [unwrap bind]. destruct fuel; cbn; exists [v1]; (split; [auto|]);
        (split; [cbn; destruct (i_root I) as [_ ->]; auto|]); repeat split; auto; exists []; auto.
    Qed.
    
    Lemma inv_add q vis pred L cur n : inv q vis pred L -> In cur vis -> adjacent g cur n -> ~ In n vis -> n <> v0 ->
      inv (q ++ [n]) (n :: vis) ((n, Some cur) :: pred) (upL L n (S (L cur))).
    Proof.
      intros I C A N NV.
      assert (U : forall x, In x vis -> upL L n (S (L cur)) x = L x).
      { intros x Ix. unfold upL. destruct (Nat.eqb_spec x n); auto. subst; contradiction. }
      assert (Un : upL L n (S (L cur)) n = S (L cur)) by (unfold upL; rewrite Nat.eqb_refl; auto).
      split.
      - constructor; auto. apply (i_nd I).
      - intros x [<-|Ix]; [apply (adjacent_live (proj2 (wf_abs Wm)) A)|apply (i_live I); auto].
      - intros x. cbn [assoc]. destruct (Nat.eqb_spec x n).
        + subst. split; [congruence|]. left; auto.
        + rewrite <- (i_key I). cbn. intuition congruence.
      - cbn. f_equal. apply (i_len I).
      - destruct (i_root I). split; [right; auto|]. rewrite U; auto.
      - intros x Ix. cbn [assoc]. destruct (Nat.eqb_spec x n).
        + subst. rewrite Un, (U cur) by auto. split; [right; auto|]. split; auto. split; auto.
          intros ->. apply N. apply (i_root I).
        + destruct Ix as [|Ix]; [congruence|]. pose proof (i_pred I Ix) as P.
          destruct (assoc x pred) as [[p|]|]; auto. destruct P as (Ip & Ap & Lx & Nx). rewrite !U by auto.
          split; [right|]; auto.
      - cbn [length]. intros x [<-|Ix].
        + rewrite Un. pose proof (i_bound I C). lia.
        + rewrite U by auto. pose proof (i_bound I Ix). lia.
      - intros x. rewrite in_app_iff. intros [Ix|[<-|[]]]; [right; apply (i_q I); auto|left; auto].
      - apply nd_app; [apply (i_qnd I)| repeat constructor; auto|]. intros x Ix [->|[]]. apply N. apply (i_q I); auto.
      - intros [->|H]; [congruence|]. apply (i_v0 I); auto.
    Qed.

    (** one round of the inner loop *)
    Lemma visit_ok cur q vis0 ns :
      forall add vis pred L, (forall n, In n ns -> adjacent g cur n) ->
      inv (q ++ add) vis pred L -> In cur vis -> ~ In cur (q ++ add) ->
      (forall x, In x vis0 -> In x vis) -> (forall x, In x add -> L x = S (L cur)) ->
      (forall x, In x vis -> In x vis0 \/ In x add) ->
      (forall x, In x add -> ~ In x vis0) -> length vis = length vis0 + length add ->
      exists r, bfs_visit v0 cur ns (q ++ add, vis, pred) = Ok r /\
      match r with
      | inr p => walk_from_to g v0 v1 p /\ length p = S (S (L cur)) /\ In v0 ns
      | inl (q', vis', pred') => exists add' L', q' = q ++ add' /\ inv q' vis' pred' L' /\
          (forall x, In x vis -> In x vis' /\ L' x = L x) /\
          (forall x, In x add' -> L' x = S (L cur)) /\
          (forall x, In x vis' -> In x vis0 \/ In x add') /\
          (forall x, In x add' -> ~ In x vis0) /\ length vis' = length vis0 + length add' /\
          (forall n, In n ns -> In n vis')
      end.
    Proof.
      induction ns as [|n ns IH]; intros add vis pred L A I C NC V0 AD VS NW LN; cbn [bfs_visit].
      - eexists. split; [reflexivity|]. exists add, L. do 7 (split; auto).
        intros n [].
      - assert (An : adjacent g cur n) by (apply A; left; auto).
        destruct (mem n vis) eqn:M.
        + apply mem_in in M. destruct (IH add vis pred L) as (r & E & R); auto.
          { intros; apply A; right; auto. }
          exists r. split; auto. destruct r as [[[q' vis'] pred']|p].
          * destruct R as (add' & L' & -> & I' & K & AD' & VS' & NW' & LN' & NS). exists add', L'. do 7 (split; auto).
            intros x [<-|Ix]; auto. apply K; auto.
          * destruct R as (? & ? & ?). split; auto. split; auto. right; auto.
        + assert (N : ~ In n vis) by (intros H; apply mem_in in H; congruence).
          destruct (Nat.eqb_spec n v0).
          * subst n. set (pred' := (v0, Some cur) :: pred).
            destruct (@follow_ok _ _ _ _ I cur (length pred) C) as (r & F & Lr & H1 & (l0 & H2) & H3).
            { rewrite (i_len I). apply (i_bound I C). }
            assert (F' : forall fuel st, (forall x, st = Some x -> In x vis) -> follow fuel pred' st = follow fuel pred st).
            { induction fuel as [|fuel IHf]; intros st Hst; destruct st as [x|]; auto. cbn [follow].
              assert (Ix : In x vis) by (apply Hst; auto).
              assert (EX : assoc x pred' = assoc x pred).
              { unfold pred'. cbn. destruct (Nat.eqb_spec x v0); auto. subst; contradiction. }
              rewrite EX. destruct (assoc x pred) as [p|] eqn:EQ; cbn [unwrap bind]; auto.
              rewrite IHf; auto. intros y ->. pose proof (i_pred I Ix) as P. rewrite EQ in P. apply P. }
            assert (F2 : follow (length pred') pred' (Some v0) = let* r := follow (length pred) pred' (Some cur) in Ok (v0 :: r)).
            { unfold pred' at 1. cbn [length follow]. unfold pred' at 1. cbn [assoc]. rewrite Nat.eqb_refl. reflexivity. }
            fold pred'. rewrite F2. rewrite F' by (intros x E; injection E as <-; auto).
            rewrite F. cbn [bind]. eexists. split; [reflexivity|]. split; [|split; [cbn; lia|left; auto]].
            split; [auto|]. split; [exists (v0 :: l0); cbn; congruence|].
            destruct r as [|y r]; [discriminate|]. cbn in H1. injection H1 as ->. cbn [walk]. split; auto.
            apply adjacent_sym; auto. apply (wf_abs Wm).
          * assert (NN : n <> cur) by (intros ->; contradiction).
            pose proof (inv_add I C An N n0) as I'.
            assert (U : forall x, In x vis -> upL L n (S (L cur)) x = L x).
            { intros x Ix. unfold upL. destruct (Nat.eqb_spec x n); auto. subst; contradiction. }
            rewrite <- app_assoc in *.
            destruct (IH (add ++ [n]) (n :: vis) ((n, Some cur) :: pred) (upL L n (S (L cur)))) as (r & E & R); auto.
            { intros; apply A; right; auto. }
            { right; auto. }
            { rewrite app_assoc, in_app_iff. intros [H|[H|[]]]; auto. }
            { intros x Ix. right. auto. }
            { intros x Ix. rewrite (U cur C). apply in_app_iff in Ix as [Ix|[<-|[]]].
              - rewrite (U x); auto. apply (i_q I). apply in_app_iff. auto.
              - unfold upL. rewrite Nat.eqb_refl. auto. }
            { intros x [<-|Ix]; [right; apply in_app_iff; right; left; auto|].
              destruct (VS _ Ix); auto. right. apply in_app_iff. auto. }
            { intros x Ix. apply in_app_iff in Ix as [Ix|[<-|[]]]; auto. }
            { rewrite app_length. cbn. lia. }
            exists r. split; auto. destruct r as [[[q' vis'] pred']|p].
            -- destruct R as (add' & L' & -> & I2 & K & AD' & VS' & NW' & LN' & NS). exists add', L'. split; auto. split; auto.
               rewrite U in AD' by auto.
               split. { intros x Ix. destruct (K x) as [K1 K2]; [right; auto|]. split; auto. rewrite K2. auto. }
               split; auto. split; auto. split; auto. split; auto. intros x [<-|Ix]; auto. apply K. left; auto.
            -- destruct R as (? & H & ?). rewrite U in H by auto. split; auto. split; auto. right; auto.
    Qed.

    Lemma bfs_ok fuel : forall q vis pred L, inv q vis pred L -> done q vis L -> mono L q -> level q vis L ->
      d_cap (verts m) < length vis - length q + fuel ->
      exists r, bfs_loop fuel c m v0 (q, vis, pred) = Ok r /\
      match r with
      | Some p => walk_from_to g v0 v1 p /\ forall k, steps g k v1 v0 -> length p <= S k
      | None => forall k, ~ steps g k v1 v0
      end.
    Proof.
      induction fuel as [|fuel IH]; intros q vis pred L I D MO LE B.
      - exfalso. assert (length vis <= d_cap (verts m)); [|lia].
        unfold d_cap. rewrite <- (seq_length (length (slots (verts m))) 0). apply NoDup_incl_length; [apply (i_nd I)|].
        intros x Ix. apply (i_live I) in Ix. apply in_seq. unfold g, abs in Ix. cbn in Ix.
        rewrite has_look_b in Ix. destruct (look (verts m) x) eqn:E; [|discriminate]. apply look_lt in E. lia.
      - cbn [bfs_loop]. destruct q as [|cur q].
        + exists None. split; auto. intros k S. destruct (@closest [] vis pred L k v0); auto.
          { intros y []. } apply (i_v0 I); auto.
        + assert (Ic : In cur vis) by (apply (i_q I); left; auto).
          assert (Lc : lvv g cur = true) by (apply (i_live I); auto).
          destruct (neighbors_ok c Wm Lc) as (ns & E & NS). rewrite E. cbn [bind].
          assert (I1 : inv q vis pred L).
          { destruct I. split; auto. intros x Ix. apply i_q0. right; auto. inversion i_qnd0; auto. }
          assert (NC : ~ In cur q) by (pose proof (i_qnd I) as H; inversion H; auto).
          pose proof (@visit_ok cur q vis ns [] vis pred L) as V. rewrite app_nil_r in V.
          destruct V as (r & E' & R); auto.
          { intros n Hn. apply NS; auto. }
          { intros x []. }
          rewrite E'. cbn [bind]. destruct (LE cur q eq_refl) as [LQ LD].
          destruct r as [[[q' vis'] pred']|p].
          * destruct R as (add & L' & -> & I' & K & AD & VS & NW & LN & NS').
            assert (LQ' : forall x, In x q -> L' x = L x) by (intros x Ix; apply K; apply (i_q I1); auto).
            assert (LC : L' cur = L cur) by (apply K; auto).
            apply IH with (L := L').
            -- auto.
            -- intros u w Iu Nu A. destruct (VS _ Iu) as [Ou|Ou]; [|exfalso; apply Nu; apply in_app_iff; auto].
               destruct (K _ Ou) as [_ ->]. destruct (Nat.eq_dec u cur) as [->|NE].
               ++ assert (Iw : In w ns) by (apply NS; auto). split; [apply NS'; auto|].
                  destruct (VS w) as [Ow|Ow]; [apply NS'; auto| |rewrite AD; auto].
                  destruct (K _ Ow) as [_ ->]. destruct (in_dec Nat.eq_dec w (cur :: q)) as [J|J].
                  ** apply LQ in J. lia.
                  ** specialize (LD w Ow J). lia.
               ++ assert (NQ : ~ In u (cur :: q)).
                  { intros [|J]; [congruence|]. apply Nu. apply in_app_iff; auto. }
                  destruct (D _ _ Ou NQ A) as [Iw Lw]. destruct (K _ Iw) as [J ->]. auto.
            -- clear - MO LQ' AD LQ.
               assert (X : forall l, (forall x, In x l -> L' x = L x /\ L' x <= S (L cur)) -> mono L l -> mono L' (l ++ add)).
               { induction l as [|a l IHl]; intros H M.
                 - cbn. clear - AD. induction add as [|a [|b add] IHa]; cbn; auto. split; [rewrite !AD; cbn; auto|].
                   apply IHa. intros; apply AD; right; auto.
                 - destruct l as [|b l].
                   + cbn. destruct add as [|b add]; auto. split; [rewrite (AD b) by (left; auto); apply H; left; auto|].
                     apply IHl; auto. intros x [].
                   + cbn [app]. cbn [mono] in M |- *. destruct M as [M1 M2]. split.
                     * rewrite (proj1 (H a (or_introl eq_refl))), (proj1 (H b (or_intror (or_introl eq_refl)))). auto.
                     * apply IHl; auto. intros; apply H; right; auto. }
               apply X.
               ++ intros x Ix. rewrite LQ' by auto. split; auto. apply LQ. right; auto.
               ++ destruct q; cbn in *; tauto.
            -- intros a q' Eq.
               assert (Ha : L cur <= L' a <= S (L cur)).
               { assert (Ia : In a (q ++ add)) by (rewrite Eq; left; auto).
                 apply in_app_iff in Ia as [Ia|Ia]; [rewrite LQ' by auto; apply LQ; right; auto|rewrite AD; auto; lia]. }
               split.
               ++ intros x Ix. rewrite in_app_iff in Ix. destruct q as [|b q].
                  ** destruct Ix as [[]|Ix]. cbn in Eq. rewrite (AD x), (AD a); auto. rewrite Eq; left; auto.
                  ** cbn in Eq. injection Eq as -> Eq. rewrite (LQ' a) in * by (left; auto).
                     destruct Ix as [Ix|Ix].
                     --- rewrite LQ' by auto. split; [|assert (L x <= S (L cur)) by (apply LQ; right; auto); lia].
                         clear - MO Ix. cbn [mono] in MO. destruct MO as [_ MO]. revert Ix MO. revert a x.
                         induction q as [|b q IHq]; intros a x Ix MO.
                         +++ destruct Ix as [->|[]]; auto.
                         +++ cbn [mono] in MO. destruct MO as [M1 M2]. destruct Ix as [->|Ix]; auto.
                             specialize (IHq b x Ix M2). lia.
                     --- rewrite (AD x) by auto. lia.
               ++ intros u Iu Nu. destruct (VS _ Iu) as [Ou|Ou]; [|exfalso; apply Nu; apply in_app_iff; auto].
                  destruct (K _ Ou) as [_ ->]. destruct (Nat.eq_dec u cur) as [->|NE]; [lia|].
                  assert (NQ : ~ In u (cur :: q)).
                  { intros [|J]; [congruence|]. apply Nu. apply in_app_iff; auto. }
                  specialize (LD u Ou NQ). lia.
            -- rewrite app_length. cbn [length] in B. rewrite LN.
               assert (length (cur :: q) <= length vis).
               { apply NoDup_incl_length; [apply (i_qnd I)|]. intros x Ix; apply (i_q I); auto. }
               cbn [length] in H. lia.
          * destruct R as (WK & LP & _). exists (Some p). split; auto. split; auto. intros k S. rewrite LP.
            destruct (le_lt_dec k (L cur)); [|lia]. exfalso.
            destruct (@closest (cur :: q) vis pred L k v0); auto.
            { intros y Iy. apply LQ in Iy. lia. }
            apply (i_v0 I); auto.
    Qed.

    Lemma walk_steps l : forall u v, walk_from_to g u v l -> steps g (length l - 1) v u.
    Proof.
      induction l as [|a l IH]; intros u v (H1 & (l0 & H2) & H3); [discriminate|].
      cbn in H1. injection H1 as ->. destruct l as [|b l].
      - destruct l0 as [|x l0]; [injection H2 as ->; cbn; auto|]. destruct l0; discriminate.
      - cbn [walk] in H3. destruct H3 as [A H3]. cbn [length]. rewrite Nat.sub_succ, Nat.sub_0_r.
        cbn [steps]. exists b. split; [|apply adjacent_sym; auto; apply (wf_abs Wm)].
        specialize (IH b v). cbn [length] in IH. rewrite Nat.sub_succ, Nat.sub_0_r in IH. apply IH.
        split; auto. split; auto. destruct l0 as [|x l0]; [discriminate|]. cbn in H2. injection H2 as -> H2. eauto.
    Qed.
  End Inv.

  Theorem shortest_path_ok c m v0 v1 : wf m -> lvv (abs m) v1 = true ->
    exists r, shortest_path c m v0 v1 = Ok r /\
    match r with
    | Some p => walk_from_to (abs m) v0 v1 p /\ forall q, walk_from_to (abs m) v0 v1 q -> length p <= length q
    | None => forall q, ~ walk_from_to (abs m) v0 v1 q
    end.
  Proof.
    intros Wm L1. unfold shortest_path. destruct (Nat.eqb_spec v0 v1).
    - subst. exists (Some [v1]). split; auto. split.
      + split; auto. split; [exists []; auto|exact I].
      + intros q (H & _). destruct q; [discriminate|cbn; lia].
    - destruct (@bfs_ok m Wm c v0 v1 n (S (d_cap (verts m))) [v1] [v1] [(v1, None)] (fun _ => 0)) as (r & E & R).
      + split; cbn; auto.
        * repeat constructor; auto.
        * intros x [<-|[]]; auto.
        * intros x. destruct (Nat.eqb_spec x v1); split; auto; try congruence. intros [|[]]; congruence.
        * intros x [<-|[]]. rewrite Nat.eqb_refl. auto.
        * repeat constructor; auto.
        * intros [|[]]; congruence.
      + intros u w [<-|[]] N. exfalso. apply N. left; auto.
      + exact I.
      + intros a q' E. split; intros; lia.
      + cbn. lia.
      + exists r. split; auto. destruct r as [p|].
        * destruct R as [R1 R2]. split; auto. intros q Q. assert (0 < length q).
          { destruct Q as (H & _). destruct q; [discriminate|cbn; lia]. }
          apply (walk_steps Wm) in Q. apply R2 in Q. lia.
        * intros q Q. apply (walk_steps Wm) in Q. eapply R; eauto.
  Qed.
End BFS.
