(** C33: the linear monotone triangulator. *)
From Coq Require Import List Arith Bool Lia Permutation.
From Verif Require Import Base Mesh Tess Buffer Monotone TriSpec TriFacts BufferSpec BufferProofs MinWeightSpec MonoSpec TessProofs.
Import ListNotations.
Set Implicit Arguments.
Unset Strict Implicit.

(** triangle lists up to order and rotation *)
Inductive teq {V : Type} : list (V * V * V) -> list (V * V * V) -> Prop :=
| teq_perm T T' : Permutation T T' -> teq T T'
| teq_turn x y z T : teq ((x, y, z) :: T) ((y, z, x) :: T)
| teq_trans T1 T2 T3 : teq T1 T2 -> teq T2 T3 -> teq T1 T3.

Section Teq.
  Variable V : Type.
  Implicit Types T U : list (V * V * V).

  Lemma teq_refl T : teq T T.
  Proof. apply teq_perm; auto. Qed.
  Lemma teq_sym T U : teq T U -> teq U T.
  Proof.
    induction 1.
    - apply teq_perm; symmetry; auto.
    - eapply teq_trans; [apply teq_turn|apply teq_turn].
    - eapply teq_trans; eauto.
  Qed.
  Lemma teq_app T1 T2 U1 U2 : teq T1 T2 -> teq U1 U2 -> teq (T1 ++ U1) (T2 ++ U2).
  Proof.
    intros H1 H2. apply teq_trans with (T2 ++ U1).
    - clear H2. induction H1; cbn.
      + apply teq_perm. apply Permutation_app_tail. auto.
      + apply teq_turn.
      + eapply teq_trans; eauto.
    - clear H1. induction H2.
      + apply teq_perm. apply Permutation_app_head. auto.
      + eapply teq_trans; [apply teq_perm, Permutation_app_comm|].
        eapply teq_trans; [cbn; apply teq_turn|]. apply teq_perm.
        change ((y, z, x) :: T ++ T2) with (((y, z, x) :: T) ++ T2). apply Permutation_app_comm.
      + eapply teq_trans; eauto.
  Qed.
  Lemma teq_map W (f : V -> W) T U : teq T U -> teq (map (fun t => match t with (a, b, c) => (f a, f b, f c) end) T)
                                                (map (fun t => match t with (a, b, c) => (f a, f b, f c) end) U).
  Proof.
    induction 1; cbn.
    - apply teq_perm, Permutation_map; auto.
    - apply teq_turn.
    - eapply teq_trans; eauto.
  Qed.
  Lemma teq_flip T U : teq T U -> teq (map (@flip_tri V) T) (map (@flip_tri V) U).
  Proof.
    induction 1; cbn.
    - apply teq_perm, Permutation_map; auto.
    - apply teq_sym. apply teq_turn.
    - eapply teq_trans; eauto.
  Qed.
  Lemma tri_teq a l b T U : teq T U -> tri a l b T -> tri a l b U.
  Proof.
    induction 1; intros H1; auto.
    - eapply tri_perm; eauto.
    - apply tri_turn; auto.
  Qed.
  Lemma triangulates_teq p T U : teq T U -> triangulates p T -> triangulates p U.
  Proof. intros H (a & l & b & -> & K). exists a, l, b. split; auto. eapply tri_teq; eauto. Qed.
  Lemma flip_flip T : map (@flip_tri V) (map (@flip_tri V) T) = T.
  Proof. rewrite map_map. induction T as [|[[a b] c] T IH]; cbn; congruence. Qed.

  (** [chain st p T]: the path [p] runs along the stack [st] (last element first); between two
      consecutive stack elements the path and the stack edge bound a region that [T] triangulates. *)
  Inductive chain : list V -> list V -> list (V * V * V) -> Prop :=
  | ch_one s : chain [s] [s] []
  | ch_push s t st p l T1 T2 : chain (s :: st) (p ++ [s]) T1 -> tri s l t T2 ->
      chain (t :: s :: st) ((p ++ s :: l) ++ [t]) (T1 ++ T2).

  Lemma chain_last s st p T : chain (s :: st) p T -> exists q, p = q ++ [s].
  Proof. inversion 1; subst; eauto. exists []; auto. Qed.
  (** closing the region below a stack from a new vertex on the other side *)
  Lemma chain_fan st p T : chain st p T -> forall x t q, p = q ++ [t] ->
    exists F, teq F (map (fun e => (x, snd e, fst e)) (windows st)) /\ tri x q t (T ++ F).
  Proof.
    induction 1 as [s|s t st p l T1 T2 H IH G]; intros x u q E.
    - change [s] with ([] ++ [s]) in E. apply app_inj_tail in E as [<- <-]. exists []. split; [apply teq_refl|constructor].
    - apply app_inj_tail in E as [<- <-]. destruct (IH x s p eq_refl) as (F & E & K).
      exists ((x, s, t) :: F). split.
      + cbn [windows map fst snd]. apply (@teq_app [(x, s, t)] [(x, s, t)]); [apply teq_refl|]. exact E.
      + eapply tri_perm; [|apply tri_node; [exact K|exact G]].
        rewrite <- !app_assoc. cbn. symmetry.
        etransitivity; [apply Permutation_app_head, Permutation_app_comm|]. cbn. 
        etransitivity; [symmetry; apply Permutation_middle|]. constructor. apply Permutation_app_head, Permutation_refl.
  Qed.

  (** the whole remaining stack polygon *)
  Lemma chain_glue st p T : chain st p T -> forall q T', triangulates (rev st ++ q) T' -> triangulates (p ++ q) (T' ++ T).
  Proof.
    induction 1 as [s|s t st p l T1 T2 H IH G]; intros q T' K.
    - rewrite app_nil_r. exact K.
    - assert (K2 : triangulates (rev st ++ s :: l ++ t :: q) (T' ++ T2)).
      { apply triangulates_glue.
        - cbn in K. rewrite <- !app_assoc in K. exact K.
        - exists s, l, t. auto. }
      assert (K3 : triangulates ((p ++ [s]) ++ l ++ t :: q) ((T' ++ T2) ++ T1)).
      { apply IH. cbn. rewrite <- app_assoc. exact K2. }
      replace (((p ++ s :: l) ++ [t]) ++ q) with ((p ++ [s]) ++ l ++ t :: q) by (rewrite <- !app_assoc; reflexivity).
      eapply triangulates_perm; [|exact K3]. rewrite <- app_assoc. apply Permutation_app_head, Permutation_app_comm.
  Qed.
End Teq.

Definition glob {P} (vs : list (P * nat)) : nat * nat * nat -> nat * nat * nat := relabel (idx vs).
Lemma put_ok P (vs : list (P * nat)) ix a b c ix' : put vs ix a b c = Ok ix' ->
  ix' = ix ++ flatten [glob vs (a, b, c)] /\ a < length vs /\ b < length vs /\ c < length vs.
Proof.
  unfold put, at_. intros H. inv_ok H. inv_ok H. inv_ok H. inv_ok H0. inv_ok H1. inv_ok H2. injection H as <-.
  unfold glob, relabel, idx. rewrite H0, H1, H2.
  repeat split; try (apply nth_error_Some; congruence).
Qed.
Lemma at_some A (l : list A) i : i < length l -> exists x, at_ l i = Ok x.
Proof. intros H. unfold at_. destruct (nth_error l i) eqn:E; cbn; eauto. apply nth_error_None in E. lia. Qed.
Lemma put_total P (vs : list (P * nat)) ix a b c : a < length vs -> b < length vs -> c < length vs -> exists ix', put vs ix a b c = Ok ix'.
Proof.
  intros A B C. unfold put. destruct (at_some A) as [x ->], (at_some B) as [y ->], (at_some C) as [z ->]. cbn. eauto.
Qed.

(** orientation of a path and of triangles, seen from the chain on side [d] *)
Definition Qd (d : dir) (Q : list nat) : list nat := match d with DLeft => Q | _ => rev Q end.
Definition Td (d : dir) (T : list (nat * nat * nat)) : list (nat * nat * nat) :=
  match d with DLeft => T | _ => map (@flip_tri nat) T end.
Lemma Td_app d T U : Td d (T ++ U) = Td d T ++ Td d U.
Proof. destruct d; cbn; auto using map_app. Qed.

Definition LI (d : dir) (st Q : list nat) (T : list (nat * nat * nat)) : Prop :=
  match d with
  | DNone => exists v, st = [v] /\ Q = [v] /\ T = []
  | _ => exists C, chain st (Qd d Q) C /\ teq C (Td d T) /\ 2 <= length st
  end.
Definition ext (d : dir) (Q : list nat) (x : nat) : list nat := match d with DLeft => Q ++ [x] | _ => x :: Q end.
Lemma Qd_ext d Q x : Qd d (ext d Q x) = Qd d Q ++ [x].
Proof. destruct d; reflexivity. Qed.

Section Lin.
  Variables (P : Type) (vs : list (P * nat)) (apos aneg : P -> P -> P -> bool).
  Notation g := (glob vs).

  Definition emitted (d : dir) (s1 s2 x : nat) : nat * nat * nat :=
    match d with DLeft => (s1, x, s2) | _ => (s1, s2, x) end.
  Lemma emitted_ok d s1 s2 x ix ix' : match d with DLeft => put vs ix s1 x s2 | _ => put vs ix s1 s2 x end = Ok ix' ->
    ix' = ix ++ flatten [g (emitted d s1 s2 x)].
  Proof. destruct d; intros H; apply put_ok in H; apply H. Qed.
  Lemma emitted_teq d s1 s2 x : teq [(s2, s1, x)] (Td d [emitted d s1 s2 x]).
  Proof.
    destruct d; cbn.
    - apply teq_turn.
    - apply teq_sym, teq_turn.
    - apply teq_sym, teq_turn.
  Qed.

  Lemma same_ok d x : forall st s1 q C l D ix st' ix',
    chain (s1 :: st) (q ++ [s1]) C -> tri s1 l x D -> lin_same vs apos aneg d x (s1 :: st) ix = Ok (st', ix') ->
    exists U C', ix' = ix ++ flatten (map g U) /\ chain st' ((q ++ s1 :: l) ++ [x]) C' /\ teq C' ((C ++ D) ++ Td d U) /\ 2 <= length st'.
  Proof.
    induction st as [|s2 st IH]; intros s1 q C l D ix st' ix' HC HD H.
    - cbn in H. injection H as <- <-. exists [], (C ++ D). split; [cbn; rewrite app_nil_r; auto|].
      split; [constructor; auto|]. split; [|cbn; lia].
      replace (Td d []) with (@nil (nat * nat * nat)) by (destruct d; auto). rewrite app_nil_r. apply teq_refl.
    - change (lin_same vs apos aneg d x (s1 :: s2 :: st) ix) with
        (let* b := blocked vs apos aneg d x s1 s2 in if b then Ok (x :: s1 :: s2 :: st, ix) else
         let* ix := match d with DLeft => put vs ix s1 x s2 | _ => put vs ix s1 s2 x end in
         lin_same vs apos aneg d x (s2 :: st) ix) in H.
      inv_ok H. destruct a.
      + injection H as <- <-. exists [], (C ++ D). split; [cbn; rewrite app_nil_r; auto|].
        split; [constructor; auto|]. split; [|cbn; lia].
        replace (Td d []) with (@nil (nat * nat * nat)) by (destruct d; auto). rewrite app_nil_r. apply teq_refl.
      + inv_ok H. apply emitted_ok in H1. subst a.
        inversion HC as [|s0 t0 st0 p0 l0 T1 T2 HC' G E1 E2 E3]; subst.
        apply app_inj_tail in E2 as [<- _].
        destruct (IH s2 p0 T1 (l0 ++ s1 :: l) ((s2, s1, x) :: T2 ++ D) _ _ _ HC' (tri_node G HD) H) as (U & C' & E & HC2 & T & L).
        exists (emitted d s1 s2 x :: U), C'. split.
        { rewrite E, <- app_assoc. f_equal. cbn [map]. change (g (emitted d s1 s2 x) :: map g U) with ([g (emitted d s1 s2 x)] ++ map g U).
          rewrite flatten_app. reflexivity. }
        split; [replace (((p0 ++ s2 :: l0) ++ s1 :: l) ++ [x]) with ((p0 ++ s2 :: l0 ++ s1 :: l) ++ [x]) by (rewrite <- !app_assoc; cbn; rewrite <- ?app_assoc; reflexivity); exact HC2|].
        split; [|exact L].
        eapply teq_trans; [exact T|]. change (emitted d s1 s2 x :: U) with ([emitted d s1 s2 x] ++ U).
        rewrite Td_app, !app_assoc. apply teq_app; [|apply teq_refl].
        eapply teq_trans; [apply teq_perm|apply teq_app; [apply teq_refl|apply emitted_teq]].
        rewrite <- !app_assoc. change ((s2, s1, x) :: T2 ++ D) with ([(s2, s1, x)] ++ T2 ++ D).
        apply Permutation_app_head. etransitivity; [apply Permutation_app_comm|]. rewrite <- app_assoc. reflexivity.
  Qed.

  Lemma fan_puts d x : forall st ix ix', lin_fan vs d x st ix = Ok ix' ->
    exists U, ix' = ix ++ flatten (map g U) /\ U = map (fun e => emitted d (fst e) (snd e) x) (windows st).
  Proof.
    induction st as [|s1 st IH]; intros ix ix' H.
    - cbn in H. injection H as <-. exists []. split; [cbn; rewrite app_nil_r; auto|auto].
    - destruct st as [|s2 st].
      + cbn in H. injection H as <-. exists []. split; [cbn; rewrite app_nil_r; auto|auto].
      + change (lin_fan vs d x (s1 :: s2 :: st) ix) with
          (let* ix := match d with DLeft => put vs ix s1 x s2 | _ => put vs ix s1 s2 x end in
           lin_fan vs d x (s2 :: st) ix) in H.
        inv_ok H. apply emitted_ok in H0. subst a. destruct (IH _ _ H) as (U & -> & EU).
        exists (emitted d s1 s2 x :: U). split; [|rewrite EU; reflexivity].
        rewrite <- app_assoc. f_equal. change (map g (emitted d s1 s2 x :: U)) with ([g (emitted d s1 s2 x)] ++ map g U).
        rewrite flatten_app. reflexivity.
  Qed.
  Lemma windows_snoc A : forall (l : list A) x y, windows (l ++ [x; y]) = windows (l ++ [x]) ++ [(x, y)].
  Proof.
    induction l as [|a l IH]; intros x y; [reflexivity|].
    destruct l as [|b l]; [reflexivity|]. cbn [app windows] in *. f_equal. apply (IH x y).
  Qed.
  Lemma windows_rev A : forall l : list A, Permutation (windows (rev l)) (map (fun e => (snd e, fst e)) (windows l)).
  Proof.
    induction l as [|a l IH]; [reflexivity|]. destruct l as [|b l]; [reflexivity|].
    cbn [rev]. rewrite <- app_assoc. cbn [app]. rewrite windows_snoc. cbn [windows map fst snd].
    etransitivity; [apply Permutation_app_comm|]. cbn. constructor. exact IH.
  Qed.

  Lemma teq_each (A : Type) (f h : A -> nat * nat * nat) (l : list A) :
    (forall e, teq [f e] [h e]) -> teq (map f l) (map h l).
  Proof.
    intros H. induction l as [|e l IH]; cbn; [apply teq_refl|]. apply (@teq_app _ [f e] [h e]); auto.
  Qed.

  Definition other (d : dir) : dir := match d with DLeft => DRight | _ => DLeft end.
  Lemma fan_ok d x st s1 q C ix ix' : d = DLeft \/ d = DRight ->
    chain (s1 :: st) (q ++ [s1]) C -> lin_fan vs (other d) x (rev (s1 :: st)) ix = Ok ix' ->
    exists U C', ix' = ix ++ flatten (map g U) /\ chain [x; s1] (rev (q ++ [s1]) ++ [x]) C' /\
      teq C' (map (@flip_tri nat) C ++ Td (other d) U).
  Proof.
    intros HD HC H. destruct (fan_puts H) as (U & -> & EU). destruct (chain_fan HC x eq_refl) as (F & EF & K).
    exists U. eexists. split; [reflexivity|]. split.
    - rewrite rev_app_distr. cbn [rev app]. apply (@ch_push _ s1 x [] [] (rev q) [] _ (ch_one s1) (tri_mirror K)).
    - rewrite map_app. cbn [app]. apply teq_app; [apply teq_refl|].
      eapply teq_trans; [apply teq_flip; exact EF|].
      apply teq_trans with (map (fun e => flip_tri (x, fst e, snd e)) (windows (rev (s1 :: st)))).
      + rewrite map_map. eapply teq_trans; [|apply teq_perm, Permutation_map; symmetry; apply windows_rev].
        rewrite map_map. cbn [fst snd]. apply teq_refl.
      + rewrite EU. destruct HD as [-> | ->]; cbn [other Td].
        * rewrite map_map. apply teq_each. intros [u v]. cbn. apply teq_sym, teq_turn.
        * apply teq_each. intros [u v]. cbn. apply teq_turn.
  Qed.

  Lemma add_ok s x d ix s' ix' Q T : d = DLeft \/ d = DRight ->
    LI (l_d s) (l_stack s) Q T -> lin_add vs apos aneg s x d ix = Ok (s', ix') ->
    exists U, ix' = ix ++ flatten (map g U) /\ LI d (l_stack s') (ext d Q x) (T ++ U) /\ l_d s' = d /\
      l_left s' = l_left s /\ l_right s' = l_right s.
  Proof.
    intros HD I H. unfold lin_add in H. inv_ok H. inv_ok H. injection H as ->. cbn [fst] in H1.
    assert (D : l_d s' = d) by (destruct (l_d s'), d; try discriminate; auto). clear H1.
    destruct (dir_eqb (l_d s) DNone) eqn:EN.
    - destruct (l_d s) eqn:E; try discriminate. inv_ok H0. injection H0 as <- <-. cbn [l_d l_stack l_left l_right] in *. subst.
      destruct I as (v & -> & -> & ->). exists []. split; [cbn; rewrite app_nil_r; auto|]. split; [|auto].
      assert (chain [x; v] [v; x] []) by (apply (@ch_push _ v x [] [] [] [] [] (ch_one v)); constructor).
      destruct HD as [-> | ->]; (exists []; split; [exact H0|split; [apply teq_refl|cbn; lia]]).
    - destruct (dir_eqb (l_d s) d) eqn:EQ.
      + assert (ED : l_d s = d) by (destruct (l_d s), d; try discriminate; auto).
        inv_ok H0. inv_ok H0. injection H0 as <- <-. destruct a as [st2 ix2]. cbn [fst snd l_stack l_d l_left l_right] in *.
        rewrite ED in I. assert (I' : exists C, chain (l_stack s) (Qd d Q) C /\ teq C (Td d T) /\ 2 <= length (l_stack s)) by (destruct HD as [-> | ->]; exact I). clear I.
        destruct I' as (C & HC & TC & L). destruct (l_stack s) as [|s1 st] eqn:ES; [cbn in L; lia|].
        destruct (chain_last HC) as (q & EQ2). rewrite EQ2 in HC.
        destruct (same_ok HC (tri_edge s1 x) H1) as (U & C' & -> & HC2 & T2 & L2).
        exists U. split; auto. split; [|auto].
        assert (exists C, chain st2 (Qd d (ext d Q x)) C /\ teq C (Td d (T ++ U)) /\ 2 <= length st2).
        { exists C'. rewrite Qd_ext, EQ2. split; [exact HC2|]. split; [|exact L2].
          eapply teq_trans; [exact T2|]. rewrite Td_app. apply teq_app; [rewrite app_nil_r; exact TC|apply teq_refl]. }
        destruct HD as [-> | ->]; exact H0.
      + assert (d = other (l_d s) /\ (l_d s = DLeft \/ l_d s = DRight)) as [Eo Ho].
        { destruct HD as [-> | ->]; destruct (l_d s); cbn in *; try discriminate; auto. }
        assert (I' : exists C, chain (l_stack s) (Qd (l_d s) Q) C /\ teq C (Td (l_d s) T) /\ 2 <= length (l_stack s)) by (destruct Ho as [E | E]; rewrite E in *; exact I). clear I.
        destruct I' as (C & HC & TC & L). unfold lin_opposite in H0. inv_ok H0.
        destruct (l_stack s) as [|s1 [|s2 st]] eqn:ES; [cbn in L; lia|cbn in L; lia|].
        inv_ok H0. injection H0 as <- <-. cbn [l_stack l_d l_left l_right] in *.
        destruct (chain_last HC) as (q & EQ2). rewrite EQ2 in HC. rewrite Eo in H1.
        destruct (fan_ok Ho HC H1) as (U & C' & -> & HC2 & T2).
        exists U. split; auto. split; [|auto].
        assert (exists C, chain [x; s1] (Qd d (ext d Q x)) C /\ teq C (Td d (T ++ U)) /\ 2 <= length [x; s1]).
        { exists C'. split.
          - rewrite Qd_ext. replace (Qd d Q) with (rev (q ++ [s1])); [exact HC2|]. rewrite <- EQ2, Eo.
            destruct Ho as [-> | ->]; cbn; auto using rev_involutive.
          - split; [|cbn; lia]. eapply teq_trans; [exact T2|]. rewrite <- Eo, Td_app. apply teq_app; [|apply teq_refl].
            eapply teq_trans; [apply teq_flip; exact TC|]. rewrite Eo. destruct Ho as [-> | ->]; cbn; [apply teq_refl|].
            rewrite flip_flip. apply teq_refl. }
        destruct HD as [-> | ->]; exact H0.
  Qed.
End Lin.

(** the path from the last right vertex over the top to the last left vertex *)
Definition grow (Q : list nat) (ops : list (bool * nat)) : list nat :=
  rev (side_of false ops) ++ Q ++ side_of true ops.
Definition dside (b : bool) : dir := if b then DLeft else DRight.
Lemma grow_cons Q b x ops : grow Q ((b, x) :: ops) = grow (ext (dside b) Q x) ops.
Proof.
  unfold grow, side_of. destruct b; cbn; rewrite <- ?app_assoc; reflexivity.
Qed.
Lemma grow_nil Q : grow Q [] = Q.
Proof. unfold grow. cbn. apply app_nil_r. Qed.
Lemma grow_snoc Q ops b x : grow Q (ops ++ [(b, x)]) = ext (dside b) (grow Q ops) x.
Proof.
  unfold grow, side_of. rewrite !filter_app, !map_app. destruct b; cbn; rewrite ?app_nil_r, ?rev_app_distr, <- ?app_assoc; reflexivity.
Qed.
(** the direction after a run *)
Definition last_dir (d : dir) (ops : list (bool * nat)) : dir := fold_left (fun _ o => dside (fst o)) ops d.

Section LinRun.
  Variables (P : Type) (vs : list (P * nat)) (apos aneg : P -> P -> P -> bool).
  Notation g := (glob vs).
  Notation M := (linear vs apos aneg).

  Lemma lin_steps_ok : forall ops (s s' : lin) ix ix' Q T,
    LI (l_d s) (l_stack s) Q T -> @m_steps M ops (s, ix) = Ok (s', ix') ->
    exists U, ix' = ix ++ flatten (map g U) /\ LI (l_d s') (l_stack s') (grow Q ops) (T ++ U) /\ l_d s' = last_dir (l_d s) ops.
  Proof.
    induction ops as [|[b x] ops IH]; intros s s' ix ix' Q T I H.
    - cbn in H. injection H as <- <-. exists []. rewrite !app_nil_r, grow_nil. auto.
    - cbn [m_steps] in H. inv_ok H. destruct a as [s2 ix2].
      assert (K : exists U, ix2 = ix ++ flatten (map g U) /\ LI (dside b) (l_stack s2) (ext (dside b) Q x) (T ++ U) /\ l_d s2 = dside b).
      { unfold m_step in H0. cbn [fst snd] in H0. destruct b; cbn in H0; (unfold lin_left in H0 || unfold lin_right in H0);
          (apply add_ok with (Q := Q) (T := T) in H0; [|cbn; auto|exact I]);
          destruct H0 as (U & ? & ? & ? & _); exists U; auto. }
      destruct K as (U & -> & I2 & D2). rewrite <- D2 in I2.
      destruct (IH _ _ _ _ _ _ I2 H) as (U2 & -> & I3 & D3). exists (U ++ U2).
      split; [rewrite map_app, flatten_app, app_assoc; reflexivity|].
      split; [rewrite app_assoc, grow_cons, <- D2; exact I3|]. rewrite D3, D2. reflexivity.
  Qed.

  Lemma LI_new v : LI (l_d (lin_new v)) (l_stack (lin_new v)) [v] [].
  Proof. exists v. auto. Qed.

  Lemma grow_poly v ops : exists p q, grow [v] ops = p ++ q /\ chain_poly v ops = q ++ p.
  Proof. exists (rev (side_of false ops)), (v :: side_of true ops). split; reflexivity. Qed.
  Lemma grow_triangulates v ops T : triangulates (grow [v] ops) T -> triangulates (chain_poly v ops) T.
  Proof. destruct (grow_poly v ops) as (p & q & -> & ->). apply triangulates_rot. Qed.

  (** what is still to be triangulated, counter-clockwise *)
  Definition rest_of (d : dir) (st : list nat) : list nat := match d with DLeft => rev st | _ => st end.

  Lemma LI_rest d st Q T T' : LI d st Q T -> d <> DNone -> triangulates (rest_of d st) T' -> triangulates Q (T ++ T').
  Proof.
    intros I N K. destruct d; [| |congruence]; destruct I as (C & HC & TC & L); cbn in *.
    - pose proof (@chain_glue _ _ _ _ HC [] T') as G. rewrite !app_nil_r in G. specialize (G K).
      eapply triangulates_teq; [|exact G]. eapply teq_trans; [apply teq_app; [apply teq_refl|exact TC]|].
      apply teq_perm, Permutation_app_comm.
    - apply triangulates_mirror in K.
      pose proof (@chain_glue _ _ _ _ HC [] (map (@flip_tri nat) T')) as G. rewrite !app_nil_r in G. specialize (G K).
      apply triangulates_mirror in G. rewrite rev_involutive, map_app, flip_flip in G.
      eapply triangulates_teq; [|exact G]. eapply teq_trans; [apply teq_app; [apply teq_refl|apply teq_flip; exact TC]|].
      rewrite flip_flip. apply teq_perm, Permutation_app_comm.
  Qed.
  Lemma LI_done d st Q T : LI d st Q T -> d <> DNone -> length st <= 2 -> triangulates Q T.
  Proof.
    intros I N L. rewrite <- (app_nil_r T). apply (LI_rest I N).
    destruct d; [| |congruence]; destruct I as (C & HC & TC & L2); cbn.
    - destruct st as [|a [|b [|]]]; cbn in *; try lia. exists b, [], a. split; [auto|constructor].
    - destruct st as [|a [|b [|]]]; cbn in *; try lia. exists a, [], b. split; [auto|constructor].
  Qed.
  Lemma last_dir_some : forall ops d, ops <> [] -> last_dir d ops <> DNone.
  Proof.
    intros ops d N. destruct (exists_last N) as (l & o & ->). unfold last_dir. rewrite fold_left_app. cbn. destruct (fst o); discriminate.
  Qed.

  Lemma g_map T : map g T = map (fun t => match t with (a, b, c) => (idx vs a, idx vs b, idx vs c) end) T.
  Proof. apply map_ext. intros [[a b] c]. reflexivity. Qed.
  Lemma glob_triangulates p T : triangulates p T -> triangulates (map (idx vs) p) (map g T).
  Proof. intros H. rewrite g_map. apply (map_nth_tri vs H). Qed.

  Lemma lin_run_ok v ops pre ix : ops <> [] -> m_run M v ops pre = Ok ix ->
    exists T, ix = pre ++ flatten T /\ triangulates (map (idx vs) (chain_poly v ops)) T.
  Proof.
    intros N H. unfold m_run in H. inv_ok H. destruct a as [s ix2].
    destruct (lin_steps_ok (LI_new v) H0) as (U & -> & I & D). cbn [app] in I.
    cbn in H. unfold lin_finish in H. inv_ok H. injection H as <-. apply Nat.leb_le in H1.
    exists (map g U). split; auto. apply glob_triangulates, grow_triangulates.
    apply (LI_done I); auto. rewrite D. apply last_dir_some; auto.
  Qed.

  Lemma lin_prefix_ok v ops pre s ix : ops <> [] -> m_steps ops (m_new M v, pre) = Ok (s, ix) ->
    exists U, ix = pre ++ flatten (map (relabel (idx vs)) U) /\ forall T',
      triangulates (rest_of (l_d s) (l_stack s)) T' -> triangulates (chain_poly v ops) (U ++ T').
  Proof.
    intros N H. destruct (lin_steps_ok (LI_new v) H) as (U & -> & I & D). cbn [app] in I.
    exists U. split; auto. intros T' K. apply grow_triangulates. apply (LI_rest I); auto. rewrite D. apply last_dir_some; auto.
  Qed.

  Notation n := (length vs).
  Definition LN (s : lin) : Prop := Forall (fun x => x < n) (l_stack s) /\ 1 <= length (l_stack s) /\
    (l_d s = DNone -> length (l_stack s) = 1).
  Lemma blocked_total d x a b : x < n -> a < n -> b < n -> exists r, blocked vs apos aneg d x a b = Ok r.
  Proof.
    intros A B C. unfold blocked. destruct (at_some A) as [p ->], (at_some B) as [q ->], (at_some C) as [r ->]. cbn. eauto.
  Qed.
  Lemma same_total d x : x < n -> forall st ix, Forall (fun y => y < n) st ->
    exists st' ix', lin_same vs apos aneg d x st ix = Ok (st', ix') /\ Forall (fun y => y < n) st' /\ 1 <= length st'.
  Proof.
    intros X. induction st as [|s1 st IH]; intros ix F.
    - exists [x], ix. cbn. repeat split; auto.
    - destruct st as [|s2 st].
      + exists [x; s1], ix. cbn. repeat split; auto.
      + change (lin_same vs apos aneg d x (s1 :: s2 :: st) ix) with
          (let* b := blocked vs apos aneg d x s1 s2 in if b then Ok (x :: s1 :: s2 :: st, ix) else
           let* ix := match d with DLeft => put vs ix s1 x s2 | _ => put vs ix s1 s2 x end in
           lin_same vs apos aneg d x (s2 :: st) ix).
        inversion F as [|? ? F1 F2]; subst. inversion F2 as [|? ? F3 F4]; subst.
        destruct (blocked_total d X F1 F3) as [b ->]. cbn [bind]. destruct b.
        * do 2 eexists. split; [reflexivity|]. split; [auto|cbn; lia].
        * destruct (put_total ix F1 X F3) as [i1 E1], (put_total ix F1 F3 X) as [i2 E2].
          destruct d; rewrite ?E1, ?E2; cbn [bind]; apply IH; auto.
  Qed.
  Lemma fan_total d x : x < n -> forall st ix, Forall (fun y => y < n) st -> exists ix', lin_fan vs d x st ix = Ok ix'.
  Proof.
    intros X. induction st as [|s1 st IH]; intros ix F; [cbn; eauto|].
    destruct st as [|s2 st]; [cbn; eauto|].
    change (lin_fan vs d x (s1 :: s2 :: st) ix) with
      (let* ix := match d with DLeft => put vs ix s1 x s2 | _ => put vs ix s1 s2 x end in lin_fan vs d x (s2 :: st) ix).
    inversion F as [|? ? F1 F2]; subst. inversion F2 as [|? ? F3 F4]; subst.
    destruct (put_total ix F1 X F3) as [i1 E1], (put_total ix F1 F3 X) as [i2 E2].
    destruct d; rewrite ?E1, ?E2; cbn [bind]; apply IH; auto.
  Qed.
  Lemma add_total s x d ix : d <> DNone -> LN s -> x < n -> exists s' ix', lin_add vs apos aneg s x d ix = Ok (s', ix') /\ LN s'.
  Proof.
    intros N (F & L & O) X. unfold lin_add. destruct (dir_eqb (l_d s) DNone) eqn:EN.
    - destruct (l_d s) eqn:E; try discriminate. rewrite O; auto. cbn [Nat.eqb assert bind fst l_d].
      replace (dir_eqb d d) with true by (destruct d; auto). cbn [assert]. do 2 eexists. split; [reflexivity|].
      unfold LN. cbn [l_stack l_d length]. split; [constructor; auto|]. split; [lia|congruence].
    - destruct (dir_eqb (l_d s) d) eqn:EQ.
      + assert (l_d s = d) by (destruct (l_d s), d; try discriminate; auto). subst d.
        destruct (Nat.leb_spec 1 (length (l_stack s))); [|lia]. cbn [assert].
        destruct (@same_total (l_d s) x X (l_stack s) ix F) as (st' & ix' & -> & F' & L'). cbn [bind fst snd l_d].
        rewrite EQ. cbn [assert]. do 2 eexists. split; [reflexivity|]. split; [exact F'|]. split; [exact L'|]. cbn. congruence.
      + unfold lin_opposite. rewrite EQ. cbn [negb assert].
        destruct (l_stack s) as [|s1 [|s2 st]] eqn:ES; [cbn in L; lia| |].
        * cbn [bind fst l_d]. replace (dir_eqb d d) with true by (destruct d; auto). cbn [assert].
          do 2 eexists. split; [reflexivity|]. unfold LN. cbn [l_stack l_d length]. split; [constructor; auto|]. split; [lia|congruence].
        * destruct (@fan_total d x X (rev (s1 :: s2 :: st)) ix) as [ix' ->].
          { apply Forall_forall. intros y Hy. apply in_rev in Hy. eapply Forall_forall in F; eauto. }
          cbn [bind fst l_d]. replace (dir_eqb d d) with true by (destruct d; auto). cbn [assert].
          do 2 eexists. split; [reflexivity|]. inversion F; subst. unfold LN. cbn [l_stack l_d length].
          split; [repeat constructor; auto|]. split; [lia|congruence].
  Qed.
  Lemma lin_steps_total : forall ops s ix, LN s -> Forall (fun o => snd o < n) ops ->
    exists s' ix', @m_steps M ops (s, ix) = Ok (s', ix').
  Proof.
    induction ops as [|[b x] ops IH]; intros s ix I F; [cbn; eauto|].
    inversion F as [|? ? F1 F2]; subst. cbn [m_steps]. unfold m_step. cbn [fst snd] in *.
    assert (K : exists s' ix', (if b then lin_left vs apos aneg s x ix else lin_right vs apos aneg s x ix) = Ok (s', ix') /\ LN s').
    { destruct b; apply add_total; auto; discriminate. }
    destruct K as (s' & ix' & E & I'). cbn. rewrite E. cbn [bind]. apply IH; auto.
  Qed.
  (** no insertion panics; the final [assert!(self.is_done())] is the only way to fail *)
  Lemma lin_total v ops pre : v < n -> Forall (fun o => snd o < n) ops ->
    exists s ix, m_steps ops (m_new M v, pre) = Ok (s, ix) /\
      m_run M v ops pre = (if length (l_stack s) <=? 2 then Ok ix else Panic).
  Proof.
    intros V F. destruct (@lin_steps_total ops (lin_new v) pre) as (s & ix & E); auto.
    { split; [cbn; auto|]. split; [cbn; lia|reflexivity]. }
    exists s, ix. split; auto. unfold m_run. cbn in *. rewrite E. reflexivity.
  Qed.
End LinRun.
