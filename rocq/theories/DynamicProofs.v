(** C34: the dynamic monotone triangulator. *)
From Coq Require Import List Arith Bool Lia Permutation.
From Verif Require Import Base Mesh Tess Buffer Monotone TriSpec TriFacts BufferSpec BufferProofs MinWeightSpec MonoSpec TessProofs MinWeightProofs LinearProofs.
Import ListNotations.
Set Implicit Arguments.
Unset Strict Implicit.

Section Dyn.
  Variables (P : Type) (vs : list (P * nat)).
  Variable small : list (P * nat) -> res (option (list tri3)).
  Variable weight : list (P * nat) -> res (list tri3).
  Notation M := (dynamic vs small weight).

  Lemma dyn_steps : forall ops (s : dyn) ix, @m_steps M ops (s, ix) =
    Ok (mkDyn (rev (side_of true ops) ++ y_left s) (rev (side_of false ops) ++ y_right s) (last_dir (y_d s) ops), ix).
  Proof.
    induction ops as [|[b x] ops IH]; intros s ix; [destruct s; reflexivity|].
    cbn [m_steps]. unfold m_step. cbn [fst snd]. destruct b; cbn; rewrite IH; unfold side_of; cbn; rewrite <- app_assoc; reflexivity.
  Qed.

  Lemma gather_ok : forall l us, gather vs l = Ok us -> map snd us = map (idx vs) l /\ length us = length l /\ Forall (fun i => i < length vs) l.
  Proof.
    induction l as [|i l IH]; intros us H; cbn in H; [injection H as <-; auto|].
    inv_ok H. inv_ok H. injection H as <-. unfold at_ in H0. inv_ok H0. destruct (IH _ H1) as (E & L & F).
    cbn. unfold idx at 1. rewrite H0, E, L. split; auto. split; auto. constructor; auto. apply nth_error_Some. congruence.
  Qed.
  Lemma gather_total : forall l, Forall (fun i => i < length vs) l -> exists us, gather vs l = Ok us.
  Proof.
    induction 1 as [|i l H F [us E]]; cbn; [eauto|]. destruct (at_some H) as [x ->]. cbn. rewrite E. cbn. eauto.
  Qed.

  (** exactly what is handed over *)
  Lemma dyn_run v ops pre : m_run M v ops pre =
    let* us := gather vs (chain_poly v ops) in
    let* o := small us in
    let* T := (match o with Some T => Ok T | None => weight us end) in
    Ok (pre ++ flatten T).
  Proof.
    unfold m_run. change (m_new M v) with (dyn_new v). rewrite dyn_steps. cbn [bind fst snd m_finish dynamic].
    unfold dyn_finish. cbn [y_left y_right dyn_new]. rewrite rev_app_distr, rev_involutive. cbn [rev app]. rewrite app_nil_r.
    unfold chain_poly. destruct (gather vs _) as [us| |]; cbn [bind]; auto.
    destruct (small us) as [[T|]| |]; cbn [bind]; auto.
  Qed.

  Hypothesis small_tri : forall us T, small us = Ok (Some T) -> triangulates (map snd us) T.
  Hypothesis weight_tri : forall us T, weight us = Ok T -> triangulates (map snd us) T.

  Lemma finish_tri l pre ix : 
    (let* us := gather vs l in let* o := small us in
     match o with Some T => Ok (pre ++ flat_map flat3 T) | None => let* T := weight us in Ok (pre ++ flat_map flat3 T) end) = Ok ix ->
    exists T, ix = pre ++ flatten T /\ triangulates (map (idx vs) l) T.
  Proof.
    intros H. inv_ok H. inv_ok H. destruct (gather_ok H0) as (E & _ & _). rewrite <- E. destruct a0 as [T|].
    - injection H as <-. exists T. split; [reflexivity|auto].
    - inv_ok H. injection H as <-. exists a0. split; [reflexivity|auto].
  Qed.
  Lemma dyn_run_ok v ops pre ix : m_run M v ops pre = Ok ix ->
    exists T, ix = pre ++ flatten T /\ triangulates (map (idx vs) (chain_poly v ops)) T.
  Proof.
    rewrite dyn_run. intros H. apply finish_tri. destruct (gather vs _) as [us| |]; cbn [bind] in *; try discriminate.
    destruct (small us) as [[T|]| |]; cbn [bind] in *; auto.
  Qed.
End Dyn.

Section DynFull.
  Variables (P W : Type) (addW : W -> W -> W) (ltW : W -> W -> bool) (zeroW : W) (distance : P -> P -> W).
  Hypothesis WT : weights addW ltW zeroW.
  Variables (S : Type) (ds : P -> P -> S) (le : S -> S -> bool) (cv : P -> P -> P -> bool).
  Variables (dbg : bool) (vd : nat -> nat -> bool).
  Notation small := (try_min_weight_small_direct ds le cv).
  Notation weight := (minweight_dynamic_direct addW ltW zeroW distance dbg vd).

  Lemma list_vlist (us : list (P * nat)) x : In x us ->
    us = vlist (fun i => fst (nth i us x)) (fun i => snd (nth i us x)) (length us).
  Proof.
    intros _. unfold vlist. apply List.nth_ext with (d := x) (d' := x).
    - rewrite map_length, seq_length. auto.
    - intros n H. set (f := fun i => (fst (nth i us x), snd (nth i us x))).
      rewrite (@nth_indep _ (map f (seq 0 (length us))) n x (f 0)) by (rewrite map_length, seq_length; auto).
      rewrite map_nth, seq_nth by auto. unfold f. cbn [plus]. destruct (nth n us x); auto.
  Qed.

  Lemma weight_tri us T : weight us = Ok T -> triangulates (map snd us) T.
  Proof.
    intros H. destruct us as [|x us]; [discriminate|].
    assert (E := @list_vlist (x :: us) x (or_introl eq_refl)).
    set (ps := fun i => fst (nth i (x :: us) x)) in *. set (ind := fun i => snd (nth i (x :: us) x)) in *.
    set (n := length (x :: us)) in *. rewrite E in H |- *.
    destruct (le_lt_dec 4 n) as [L|L].
    - destruct (@minweight_full P W addW ltW zeroW distance WT vd dbg ps ind n L) as [(L' & E1 & T1 & _)|[E1 _]].
      + rewrite E1 in H. injection H as <-. unfold vlist. rewrite map_map. cbn [snd].
        destruct T1 as (a & l & b & E2 & K). apply (fun t => @map_nth_tri P [] (seq 0 n) L' t ind). exists a, l, b. auto.
      + congruence.
    - rewrite minweight_small in H by auto. discriminate.
  Qed.

  Notation M vs := (dynamic vs small weight).
  Lemma dynamic_ok (vs : list (P * nat)) v ops pre ix : m_run (M vs) v ops pre = Ok ix ->
    exists T, ix = pre ++ flatten T /\ triangulates (map (idx vs) (chain_poly v ops)) T.
  Proof. apply dyn_run_ok; [apply small_ok|apply weight_tri]. Qed.

  (** from five vertices on the result has minimal weight, or there is no valid triangulation *)
  Variables (ps : nat -> P) (ind : nat -> nat) (N : nat).
  Lemma gather_vlist : forall l, Forall (fun i => i < N) l -> gather (vlist ps ind N) l = Ok (map (fun i => (ps i, ind i)) l).
  Proof.
    induction 1 as [|i l H F IH]; cbn; auto. unfold at_, vlist in *.
    rewrite nth_error_map. rewrite (nth_error_nth' _ 0) by (rewrite seq_length; auto). rewrite seq_nth by auto. cbn. rewrite IH. reflexivity.
  Qed.
  Lemma map_vlist l : map (fun i => (ps i, ind i)) l = vlist (fun k => ps (nth k l 0)) (fun k => ind (nth k l 0)) (length l).
  Proof.
    unfold vlist. rewrite <- (map_map (fun k => nth k l 0) (fun i => (ps i, ind i))). f_equal.
    apply List.nth_ext with (d := 0) (d' := 0); [rewrite map_length, seq_length; auto|]. intros n H.
    set (f := fun k => nth k l 0).
    rewrite (@nth_indep _ (map f (seq 0 (length l))) n 0 (f 0)) by (rewrite map_length, seq_length; auto).
    rewrite map_nth, seq_nth by auto. reflexivity.
  Qed.
  Lemma dynamic_minimum v ops pre : let l := chain_poly v ops in let n := length l in 5 <= n -> Forall (fun i => i < N) l ->
    (exists L, m_run (M (vlist ps ind N)) v ops pre = Ok (pre ++ flatten (map (relabel (fun k => ind (nth k l 0))) L)) /\
       triangulates (seq 0 n) L /\ uses_valid vd n L /\
       forall L', triangulates (seq 0 n) L' -> uses_valid vd n L' ->
         ltW (total addW zeroW (fun a b => distance (ps (nth a l 0)) (ps (nth b l 0))) L')
             (total addW zeroW (fun a b => distance (ps (nth a l 0)) (ps (nth b l 0))) L) = false) \/
    (m_run (M (vlist ps ind N)) v ops pre = Panic /\ forall L', triangulates (seq 0 n) L' -> ~ uses_valid vd n L').
  Proof.
    intros l n L F. rewrite dyn_run. fold l. rewrite gather_vlist by auto. cbn [bind]. rewrite map_vlist. fold n.
    set (ps' := fun k => ps (nth k l 0)). set (ind' := fun k => ind (nth k l 0)).
    assert (E : small (vlist ps' ind' n) = Ok None).
    { unfold try_min_weight_small_direct. unfold vlist. rewrite map_length, seq_length.
      destruct n as [|[|[|[|[|n']]]]]; try lia. reflexivity. }
    rewrite E. cbn [bind].
    destruct (@minweight_full P W addW ltW zeroW distance WT vd dbg ps' ind' n ltac:(lia)) as [(L' & E1 & T1 & V1 & O1)|[E1 O1]]; rewrite E1; cbn [bind].
    - left. exists L'. auto.
    - right. auto.
  Qed.
End DynFull.
