(** Closed forms of the results on monotone triangulators and the sweep. *)
From Coq Require Import List Arith Bool Lia QArith.
From Verif Require Import Base Mesh Tess Monotone TriSpec BufferSpec MinWeightSpec GeoSpec Geo MonoSpec PolySpec Sweep SweepSpec.
From Verif Require Import TessProofs LinearProofs DynamicProofs MonoLaw MonoLawProofs DelaunayLaw SweepProofs SweepEx.
Import ListNotations.
Set Implicit Arguments.
Unset Strict Implicit.
Local Open Scope nat_scope.

Lemma idx_at P (vs : list (P * nat)) i : idx vs i = index_at vs i.
Proof.
  unfold idx, index_at. revert i. induction vs as [|p vs IH]; intros [|i]; cbn; auto.
Qed.
Lemma map_at P (vs : list (P * nat)) l : map (idx vs) l = map (index_at vs) l.
Proof. apply map_ext. apply idx_at. Qed.

Lemma linear_run P (vs : list (P * nat)) apos aneg v ops pre ix : ops <> [] -> m_run (linear vs apos aneg) v ops pre = Ok ix ->
  exists T, ix = pre ++ flatten T /\ triangulates (map (index_at vs) (chain_poly v ops)) T.
Proof. rewrite <- map_at. apply lin_run_ok. Qed.
Lemma linear_prefix P (vs : list (P * nat)) apos aneg v ops pre s ix : ops <> [] ->
  m_steps ops (m_new (linear vs apos aneg) v, pre) = Ok (s, ix) ->
  exists U, ix = pre ++ flatten (map (relabel (index_at vs)) U) /\ forall T',
    triangulates (match l_d s with DLeft => rev (l_stack s) | _ => l_stack s end) T' -> triangulates (chain_poly v ops) (U ++ T').
Proof.
  intros N H. destruct (lin_prefix_ok N H) as (U & -> & K). exists U. split; [|exact K].
  do 2 f_equal. apply map_ext. intros [[a b] c]. unfold relabel. rewrite !idx_at. reflexivity.
Qed.
Lemma dynamic_run P W (addW : W -> W -> W) ltW zeroW (distance : P -> P -> W) S (ds : P -> P -> S) le cv dbg vd vs v ops pre ix :
  weights addW ltW zeroW ->
  m_run (dynamic vs (try_min_weight_small_direct ds le cv) (minweight_dynamic_direct addW ltW zeroW distance dbg vd)) v ops pre = Ok ix ->
  exists T, ix = pre ++ flatten T /\ triangulates (map (index_at vs) (chain_poly v ops)) T.
Proof. intros WT H. rewrite <- map_at. exact (dynamic_ok WT H). Qed.

(** ** The sweep *)
Lemma sweep_covers P (vs : list (P * nat)) M (L : forall pre, lawful M (idx vs) pre) dbg find es pre st ix :
  sweep dbg find (length vs) es pre = Ok (st, ix) -> queue_of (length vs) es -> all_closed st ->
  exists T, ix = pre ++ flatten T /\ covers (map snd vs) T /\
    length T + 2 * tally dbg find (starts find) es (s_new M (length vs), pre)
    = length vs + 2 * tally dbg find (@merges M) es (s_new M (length vs), pre).
Proof.
  intros H Q C. assert (3 <= length vs) by (unfold sweep in H; inv_ok H; apply Nat.leb_le; auto).
  rewrite <- map_idx. apply (@sweep_ok M (idx vs) pre (L pre) (length vs) H0 dbg find es st ix H Q C).
Qed.
Lemma sweep_linear P (vs : list (P * nat)) apos aneg dbg find es pre st ix : let M := linear vs apos aneg in
  sweep (M := M) dbg find (length vs) es pre = Ok (st, ix) -> queue_of (length vs) es -> all_closed st ->
  exists T, ix = pre ++ flatten T /\ covers (map snd vs) T /\
    length T + 2 * tally dbg find (starts find) es (s_new M (length vs), pre)
    = length vs + 2 * tally dbg find (@merges M) es (s_new M (length vs), pre).
Proof. intros M. apply sweep_covers. apply lin_lawful. Qed.
Lemma sweep_delaunay P (vs : list (P * nat)) apos aneg convex incircle dbg' dbg find es pre st ix :
  let M := delaunay dbg' vs apos aneg convex incircle in
  sweep (M := M) dbg find (length vs) es pre = Ok (st, ix) -> queue_of (length vs) es -> all_closed st ->
  exists T, ix = pre ++ flatten T /\ covers (map snd vs) T /\
    length T + 2 * tally dbg find (starts find) es (s_new M (length vs), pre)
    = length vs + 2 * tally dbg find (@merges M) es (s_new M (length vs), pre).
Proof. intros M. apply sweep_covers. apply del_lawful. Qed.
Lemma sweep_dynamic P W (addW : W -> W -> W) ltW zeroW (distance : P -> P -> W) S (ds : P -> P -> S) le cv dbg' vd
  (vs : list (P * nat)) dbg find es pre st ix : weights addW ltW zeroW ->
  let M := dynamic vs (try_min_weight_small_direct ds le cv) (minweight_dynamic_direct addW ltW zeroW distance dbg' vd) in
  sweep (M := M) dbg find (length vs) es pre = Ok (st, ix) -> queue_of (length vs) es -> all_closed st ->
  exists T, ix = pre ++ flatten T /\ covers (map snd vs) T /\
    length T + 2 * tally dbg find (starts find) es (s_new M (length vs), pre)
    = length vs + 2 * tally dbg find (@merges M) es (s_new M (length vs), pre).
Proof.
  intros WT M. apply sweep_covers. intros pre'. apply dyn_lawful; [apply small_ok|apply (weight_tri WT)].
Qed.

(** every successful run of [sweep_small] uses a proper queue *)
Lemma sort_perm vs l : Permutation.Permutation (sort_events vs l) l.
Proof.
  induction l as [|e l IH]; [constructor|]. cbn. 
  assert (I : forall e l, Permutation.Permutation (insert_event vs e l) (e :: l)).
  { clear. intros e l. induction l as [|f l IH]; [constructor; constructor|]. cbn. destruct (event_le vs e f); auto.
    eapply Permutation.perm_trans; [apply Permutation.perm_skip, IH|apply Permutation.perm_swap]. }
  eapply Permutation.perm_trans; [apply I|]. apply Permutation.perm_skip, IH.
Qed.
Lemma classified vs tol : forall l es, mapM (classify_at vs tol) l = Ok es -> map v_here es = l /\
  Forall (fun e => v_prev e = prev_of (length vs) (v_here e) /\ v_next e = next_of (length vs) (v_here e)) es.
Proof.
  induction l as [|i l IH]; intros es H; cbn in H.
  - injection H as <-. split; auto.
  - inv_ok H. inv_ok H. injection H as <-. destruct (IH _ H1) as [A B]. unfold classify_at in H0.
    inv_ok H0. inv_ok H0. inv_ok H0. injection H0 as <-. cbn. split; [congruence|]. constructor; auto.
Qed.
Lemma small_queue vs M dbg tol ix c : sweep_small vs M dbg tol ix = Ok c ->
  exists es, queue_of (length vs) es /\ sweep dbg (find_linearly vs (M := M)) (length vs) es ix = Ok c.
Proof.
  intros H. unfold sweep_small in H. inv_ok H. inv_ok H. exists (sort_events vs a). split; auto.
  destruct (classified H1) as [A B]. split.
  - rewrite <- A. apply Permutation.Permutation_map. apply sort_perm.
  - rewrite Forall_forall in *. intros e He. apply B. apply (Permutation.Permutation_in _ (sort_perm vs a)); auto.
Qed.
Lemma small_linear (vs : list (pt * nat)) apos aneg dbg tol ix st ix' :
  sweep_small vs (linear vs apos aneg) dbg tol ix = Ok (st, ix') -> all_closed st ->
  exists T, ix' = ix ++ flatten T /\ covers (map snd vs) T.
Proof.
  intros H C. destruct (small_queue H) as (es & Q & R). destruct (@sweep_linear _ vs apos aneg dbg _ es ix st ix' R Q C) as (T & A & B & _). eauto.
Qed.

Lemma small_delaunay (vs : list (pt * nat)) apos aneg convex incircle dbg' dbg tol ix st ix' :
  sweep_small vs (delaunay dbg' vs apos aneg convex incircle) dbg tol ix = Ok (st, ix') -> all_closed st ->
  exists T, ix' = ix ++ flatten T /\ covers (map snd vs) T.
Proof.
  intros H C. destruct (small_queue H) as (es & Q & R).
  destruct (@sweep_delaunay _ vs apos aneg convex incircle dbg' dbg _ es ix st ix' R Q C) as (T & A & B & _). eauto.
Qed.

Lemma simple_panics_linear : exists vs, simple_polygon (map fst vs) /\ (0 < area2 (map fst vs))%Q /\
  forall apos aneg tol dbg ix, (0 <= tol < 1)%Q -> sweep_small vs (linear vs apos aneg) dbg tol ix = Panic.
Proof. exists dart_vs. split; [apply dart_simple|]. split; [reflexivity|]. intros. apply dart_linear. auto. Qed.
Lemma simple_panics_dynamic : exists vs, simple_polygon (map fst vs) /\ (0 < area2 (map fst vs))%Q /\
  forall small weight tol dbg ix, (0 <= tol < 1)%Q -> sweep_small vs (dynamic vs small weight) dbg tol ix = Panic.
Proof. exists dart_vs. split; [apply dart_simple|]. split; [reflexivity|]. intros. apply dart_dynamic. auto. Qed.
Lemma simple_panics_delaunay : exists vs, simple_polygon (map fst vs) /\ (0 < area2 (map fst vs))%Q /\
  forall dbg' apos aneg convex incircle tol dbg ix, (0 <= tol < 1)%Q ->
    sweep_small vs (delaunay dbg' vs apos aneg convex incircle) dbg tol ix = Panic.
Proof. exists dart_vs. split; [apply dart_simple|]. split; [reflexivity|]. intros. apply dart_delaunay. auto. Qed.

(** The sweep does not notice that intervals are left open. *)
Definition open_vs : list (unit * nat) := [(tt, 0); (tt, 1); (tt, 2)].
Definition open_es : list event := [mkEv 0 2 1 VStart; mkEv 1 0 2 VStart; mkEv 2 1 0 VRegular].
Lemma open_missed : exists (vs : list (unit * nat)) es, queue_of (length vs) es /\
  forall apos aneg find pre, exists st,
    sweep (M := linear vs apos aneg) true find (length vs) es pre = Ok (st, pre) /\ ~ all_closed st /\ ~ covers (map snd vs) [].
Proof.
  exists open_vs, open_es. split.
  - split; [repeat constructor|]. repeat constructor.
  - intros apos aneg find pre. eexists. split; [reflexivity|]. split.
    + intros C. refine (C 1 _ _). reflexivity.
    + intros C. specialize (C 0 1). discriminate.
Qed.
