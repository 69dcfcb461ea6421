(** The dynamic program finds a minimum-weight triangulation. *)
From Coq Require Import List Arith Lia Bool Permutation.
From Verif Require Import Base TriSpec TriFacts Tess TessProofs StoreProofs MinWeightSpec.
Import ListNotations.
Set Implicit Arguments.
Unset Strict Implicit.

Definition prod_eqdec {A B} (da : forall x y : A, {x = y} + {x <> y}) (db : forall x y : B, {x = y} + {x <> y}) (p q : A * B) : {p = q} + {p <> q}.
Proof. destruct p as [a b], q as [a' b']. destruct (da a a'), (db b b'); [left|right|right|right]; congruence. Defined.

Lemma app_eq_len {A} : forall (a b c e : list A), length a = length b -> a ++ c = b ++ e -> a = b /\ c = e.
Proof.
  induction a as [|x a IH]; intros [|y b] c e L E; cbn in *; try lia; auto.
  injection E as -> E. destruct (IH b c e) as [-> ->]; auto.
Qed.

Section MW.
  Variables (P W : Type) (addW : W -> W -> W) (ltW : W -> W -> bool) (zeroW : W) (distance : P -> P -> W).
  Hypothesis OW : weights addW ltW zeroW.
  Variables (vd : nat -> nat -> bool) (vs : list (P * nat)) (dbg : bool) (p0 : P).
  Let n := length vs.
  Definition pos (vs : list (P * nat)) (i : nat) : P := match nth_error vs i with Some p => fst p | None => p0 end.
  Let d a b := distance (pos vs a) (pos vs b).
  Notation "x <== y" := (ltW y x = false) (at level 70).
  Notation tot := (total addW zeroW d).
  Notation per := (perimeter addW d).

  Lemma le_refl x : x <== x.
  Proof. destruct (ltW x x) eqn:E; auto. rewrite (w_asym OW E) in E. auto. Qed.
  Lemma le_add x y u v : x <== y -> u <== v -> addW x u <== addW y v.
  Proof.
    intros H1 H2. apply (w_trans OW) with (addW y u).
    - apply (w_mono OW); auto.
    - rewrite (w_comm OW y u), (w_comm OW y v). apply (w_mono OW); auto.
  Qed.
  Lemma tot_app T1 T2 : tot (T1 ++ T2) = addW (tot T1) (tot T2).
  Proof. induction T1 as [|t T1 IH]; cbn; [rewrite (w_zero OW); auto|]. rewrite IH, (w_assoc OW). auto. Qed.
  Lemma tot_perm T1 T2 : Permutation T1 T2 -> tot T1 = tot T2.
  Proof.
    induction 1; cbn; try congruence. rewrite !(w_assoc OW). f_equal. apply (w_comm OW).
  Qed.

  (** Triangulations of the polygon [i .. j] with valid diagonals. *)
  Definition okv i j := j = S i \/ vd i j = true.
  Inductive vtri : nat -> nat -> list (nat * nat * nat) -> Prop :=
  | vt_edge i : vtri i (S i) []
  | vt_node i k j T1 T2 : i < k -> k < j -> okv i k -> okv k j -> vtri i k T1 -> vtri k j T2 ->
      vtri i j ((i, k, j) :: T1 ++ T2).
  Lemma vtri_lt i j T : vtri i j T -> i < j.
  Proof. induction 1; lia. Qed.

  Lemma vtri_tri i j T : vtri i j T -> tri i (seq (S i) (j - S i)) j T.
  Proof.
    induction 1 as [i|i k j T1 T2 L1 L2 O1 O2 V1 IH1 V2 IH2].
    - rewrite Nat.sub_diag. constructor.
    - replace (seq (S i) (j - S i)) with (seq (S i) (k - S i) ++ k :: seq (S k) (j - S k)).
      + constructor; auto.
      + replace (j - S i) with ((k - S i) + S (j - S k)) by lia. rewrite seq_app. f_equal. cbn [seq]. f_equal; [lia|]. f_equal; lia.
  Qed.
  Lemma vtri_valid i j T : vtri i j T -> usable vd n i j -> uses_valid vd n T.
  Proof.
    intros V. induction V as [i|i k j T1 T2 L1 L2 O1 O2 V1 IH1 V2 IH2]; intros U.
    - intros a b c [].
    - assert (UO : forall x y, okv x y -> usable vd n x y) by (unfold okv, usable; intros; intuition lia).
      intros a b c I u v L Iu Iv. destruct I as [I|I].
      + injection I as <- <- <-. cbn in Iu, Iv.
        destruct Iu as [<-|[<-|[<-|[]]]], Iv as [<-|[<-|[<-|[]]]]; try lia; auto.
      + apply in_app_or in I as [I|I]; [eapply (IH1 (UO _ _ O1))|eapply (IH2 (UO _ _ O2))]; eauto.
  Qed.

  (** Every triangulation is of that form. *)
  Lemma seq_split i m l1 k l2 : seq i m = l1 ++ k :: l2 ->
    k = i + length l1 /\ l1 = seq i (length l1) /\ l2 = seq (S k) (length l2).
  Proof.
    intros E. assert (m = length l1 + S (length l2)) as -> by (rewrite <- (seq_length m i), E, app_length; auto).
    rewrite seq_app in E. cbn [seq] in E.
    assert (L : length (seq i (length l1)) = length l1) by apply seq_length.
    revert E L. generalize (seq i (length l1)) as s. intros s E L.
    apply app_eq_len in E as [-> E2]; auto.
    injection E2 as <- <-. rewrite seq_length. auto.
  Qed.

  Lemma uses_valid_perm T T' : Permutation T T' -> uses_valid vd n T' -> uses_valid vd n T.
  Proof. intros P1 H a b c I. apply H. eapply Permutation_in; eauto. Qed.

  Lemma tri_vtri a l b T : tri a l b T -> l = seq (S a) (length l) -> b = S a + length l -> b < n -> uses_valid vd n T ->
    exists T', vtri a b T' /\ tot T' = tot T.
  Proof.
    induction 1 as [a b|a l1 k l2 b T1 T2 H1 IH1 H2 IH2|a l b T T' PM H IH|a l b x y z T H IH]; intros E B BN UV.
    - exists []. rewrite B. cbn. rewrite Nat.add_0_r. split; auto. constructor.
    - rewrite app_length in E, B. cbn [length] in E, B. symmetry in E. apply seq_split in E as (K & E1 & E2).
      assert (LB : k < b) by lia.
      destruct IH1 as (T1' & V1 & W1); auto; try lia.
      { intros u v w I. apply UV. right. apply in_or_app. auto. }
      destruct IH2 as (T2' & V2 & W2); auto; try lia.
      { intros u v w I. apply UV. right. apply in_or_app. auto. }
      exists ((a, k, b) :: T1' ++ T2'). split.
      + constructor; auto; try lia.
        * destruct (UV a k b (or_introl eq_refl) a k) as [|[[-> ?]|]]; cbn; auto; try lia; unfold okv; [left|right]; lia || auto.
        * destruct (UV a k b (or_introl eq_refl) k b) as [|[[-> ?]|]]; cbn; auto; try lia; unfold okv; [left|right]; lia || auto.
      + cbn. rewrite !tot_app, W1, W2. auto.
    - destruct IH as (T0 & V & E0); auto. { eapply uses_valid_perm; eauto. }
      exists T0. split; auto. rewrite E0. apply tot_perm. auto.
    - destruct IH as (T0 & V & E0); auto.
      { intros u v w [I|I]; [injection I as <- <- <-|apply UV; right; auto].
        intros p q L Ip Iq. apply (UV y z x (or_introl eq_refl)); auto; cbn in *; intuition. }
      exists T0. split; auto. rewrite E0. cbn. f_equal. clear - OW.
      rewrite <- !(w_assoc OW). rewrite (w_comm OW (d x z)). rewrite <- !(w_assoc OW).
      rewrite (w_comm OW (d z y)). rewrite <- !(w_assoc OW). auto.
  Qed.

  (** ** The tables *)
  Notation ext := (ext W).
  Definition tbl_ok (valid : store bool) := st_ok valid n /\
    forall i j, i < j -> j < n -> exists b, ent valid i j = Some b /\ (b = true <-> okv i j).

  Fixpoint set_all (l : list (nat * nat)) (v : store bool) : res (store bool) :=
    match l with [] => Ok v | (i, j) :: l => let* v := st_set dbg v i j (vd i j) in set_all l v end.
  Lemma set_all_ok : forall l v, st_ok v n -> (forall i j, In (i, j) l -> i < j /\ j < n) ->
    exists v', set_all l v = Ok v' /\ st_ok v' n /\
      (forall i j, i < j -> j < n -> In (i, j) l -> ent v' i j = Some (vd i j)) /\
      (forall i j, i < j -> j < n -> ~ In (i, j) l -> ent v' i j = ent v i j).
  Proof.
    induction l as [|[i j] l IH]; intros v O R.
    - exists v. cbn. split; auto. split; auto. split; [tauto|auto].
    - destruct (R i j (or_introl eq_refl)) as [L1 L2].
      destruct (@st_set_ok bool dbg v n i j (vd i j) O L1 L2) as (v1 & E & O1 & G1 & G2).
      destruct (IH v1 O1 (fun a b I => R a b (or_intror I))) as (v2 & E2 & O2 & A & B).
      exists v2. cbn [set_all]. rewrite E. cbn [bind]. split; auto. split; auto. split.
      + intros a b La Lb I. destruct (in_dec (prod_eqdec Nat.eq_dec Nat.eq_dec) (a, b) l) as [I'|N'].
        * auto.
        * destruct I as [I|I]; [|tauto]. injection I as <- <-. rewrite B; auto.
      + intros a b La Lb N. rewrite B; auto.
        * apply G2; auto. intros I. apply N. left. auto.
        * intros I. apply N. right. auto.
  Qed.

  Lemma valid_ok : 2 <= n -> exists v, find_valid_diagonals dbg vd n = Ok v /\ tbl_ok v.
  Proof.
    intros N. unfold find_valid_diagonals. destruct (@st_new_ok bool n true N) as (v & -> & O & G). cbn [bind].
    change (exists v0, set_all (flat_map (fun i => map (fun j => (i, j)) (seq (i + 2) (n - (i + 2)))) (seq 0 n)) v = Ok v0 /\ tbl_ok v0).
    set (l := flat_map _ _).
    assert (IL : forall i j, In (i, j) l <-> i + 2 <= j /\ j < n).
    { intros i j. unfold l. rewrite in_flat_map. split.
      - intros (x & X & I). apply in_map_iff in I as (y & Y & I). injection Y as -> ->. apply in_seq in X, I. lia.
      - intros H. exists i. split; [apply in_seq; lia|]. apply in_map_iff. exists j. split; auto. apply in_seq. lia. }
    destruct (@set_all_ok l v O) as (v' & -> & O' & A & B).
    { intros i j I. apply IL in I. lia. }
    exists v'. split; auto. split; auto. intros i j L1 L2.
    destruct (le_lt_dec (i + 2) j) as [G2|G2].
    - exists (vd i j). split; [apply A; auto; apply IL; auto|]. unfold okv. intuition lia.
    - exists true. split; [|unfold okv; intuition lia]. rewrite B; auto. intros I. apply IL in I. lia.
  Qed.

  Fixpoint set_adj (l : list nat) (m : store ext) : res (store ext) :=
    match l with [] => Ok m | i :: l => let* m := st_set dbg m i (i + 1) (Fin zeroW) in set_adj l m end.
  Lemma set_adj_ok : forall l m, st_ok m n -> (forall i, In i l -> i + 1 < n) ->
    exists m', set_adj l m = Ok m' /\ st_ok m' n /\
      (forall i, (In i l \/ ent m i (S i) = Some (Fin zeroW)) -> ent m' i (S i) = Some (Fin zeroW)).
  Proof.
    induction l as [|i l IH]; intros m O R.
    - exists m. cbn. split; auto. split; auto. intros i [[]|]; auto.
    - specialize (R i (or_introl eq_refl)) as L.
      destruct (@st_set_ok ext dbg m n i (i + 1) (Fin zeroW) O ltac:(lia) ltac:(lia)) as (v1 & E & O1 & G1 & G2).
      destruct (IH v1 O1 (fun a I => R a (or_intror I))) as (v2 & E2 & O2 & A).
      exists v2. cbn [set_adj]. rewrite E. cbn [bind]. split; auto. split; auto. rewrite Nat.add_1_r in *.
      intros a H. apply A. destruct (Nat.eq_dec a i) as [->|NE]; [right; auto|].
      destruct H as [[->|I]|I]; [tauto|auto|]. right. rewrite G2; auto. congruence.
  Qed.
  Lemma init_ok : 2 <= n -> exists m, initialize_m zeroW dbg n = Ok m /\ st_ok m n /\
    forall i, i + 1 < n -> ent m i (S i) = Some (Fin zeroW).
  Proof.
    intros N. unfold initialize_m. destruct (@st_new_ok ext n (@NegInf W) N) as (m & -> & O & _). cbn [bind].
    change (exists m0, set_adj (seq 0 (n - 1)) m = Ok m0 /\ st_ok m0 n /\ forall i, i + 1 < n -> ent m0 i (S i) = Some (Fin zeroW)).
    destruct (@set_adj_ok (seq 0 (n - 1)) m O) as (m' & -> & O' & A).
    { intros i I. apply in_seq in I. lia. }
    exists m'. split; auto. split; auto. intros i L. apply A. left. apply in_seq. lia.
  Qed.

  (** triangulation recorded in the table of apexes *)
  Inductive tb (s : store (option nat)) : nat -> nat -> list (nat * nat * nat) -> Prop :=
  | tb_edge i : tb s i (S i) []
  | tb_node i k j T1 T2 : i < k -> k < j -> ent s i j = Some (Some k) -> okv i k -> okv k j ->
      tb s i k T1 -> tb s k j T2 -> tb s i j ((i, k, j) :: T1 ++ T2).
  Lemma tb_lt s i j T : tb s i j T -> i < j.
  Proof. induction 1; lia. Qed.
  Lemma tb_vtri s i j T : tb s i j T -> vtri i j T.
  Proof. induction 1; constructor; auto. Qed.
  Lemma tb_frame s s' i j T : tb s i j T -> (forall a b, i <= a -> a < b -> b <= j -> ent s' a b = ent s a b) -> tb s' i j T.
  Proof.
    induction 1 as [i|i k j T1 T2 L1 L2 E O1 O2 H1 IH1 H2 IH2]; intros F; [constructor|].
    constructor; auto.
    - rewrite F; auto; lia.
    - apply IH1. intros. apply F; lia.
    - apply IH2. intros. apply F; lia.
  Qed.

  Definition cell (m : store ext) (s : store (option nat)) i j : Prop :=
    match ent m i j with
    | Some (Fin w) => (exists T, tb s i j T /\ tot T = w) /\ forall T, vtri i j T -> w <== tot T
    | Some PosInf => ent s i j = Some None /\ forall T, ~ vtri i j T
    | _ => False
    end.

  Definition best_inv (s : store (option nat)) i j (done : nat -> Prop) (b : ext * option nat) : Prop :=
    match b with
    | (Fin w, Some k) => done k /\ i < k /\ k < j /\ okv i k /\ okv k j /\
        (exists T1 T2, tb s i k T1 /\ tb s k j T2 /\ tot ((i, k, j) :: T1 ++ T2) = w) /\
        forall k' T1 T2, done k' -> okv i k' -> okv k' j -> vtri i k' T1 -> vtri k' j T2 -> w <== tot ((i, k', j) :: T1 ++ T2)
    | (PosInf, None) => forall k' T1 T2, done k' -> okv i k' -> okv k' j -> vtri i k' T1 -> vtri k' j T2 -> False
    | _ => False
    end.

  Lemma at_pos i : i < n -> exists v, at_ vs i = Ok v /\ fst v = pos vs i /\ snd v = idx vs i.
  Proof.
    intros L. destruct (@at_ok _ vs i L) as (v & A & B). exists v. split; auto. unfold pos, idx. rewrite B. auto.
  Qed.

  Lemma best_k_ok valid m s i j : tbl_ok valid -> st_ok m n -> j < n ->
    (forall a b, a < b -> b - a < j - i -> b < n -> cell m s a b) ->
    forall ks done b, (forall k, In k ks -> i < k /\ k < j) -> best_inv s i j done b ->
    exists b', best_k addW ltW distance dbg m valid vs i j ks b = Ok b' /\ best_inv s i j (fun k => done k \/ In k ks) b'.
  Proof.
    intros [OV TV] OM JN C. induction ks as [|k ks IH]; intros done b R B.
    - exists b. split; auto. destruct b as [[|w|] [k|]]; cbn in *; try tauto.
      + destruct B as (D & B1 & B2 & B3 & B4 & B5 & B6).
        do 5 (split; [tauto|]). split; auto. intros k' T1 T2 [D'|[]]. eauto.
      + intros k' T1 T2 [D'|[]]. eauto.
    - destruct (R k (or_introl eq_refl)) as [L1 L2].
      pose proof (C i k ltac:(lia) ltac:(lia) ltac:(lia)) as C1. pose proof (C k j ltac:(lia) ltac:(lia) ltac:(lia)) as C2.
      unfold cell in C1, C2.
      destruct (ent m i k) as [x1|] eqn:E1; [|tauto]. destruct (ent m k j) as [x2|] eqn:E2; [|tauto].
      assert (NN : is_neg_inf x1 = false /\ is_neg_inf x2 = false) by (destruct x1, x2; cbn; tauto).
      apply (@st_get_ok _ dbg m n i k x1 OM) in E1; try lia. apply (@st_get_ok _ dbg m n k j x2 OM) in E2; try lia.
      cbn [best_k]. rewrite E1. cbn [bind]. rewrite E2. cbn [bind].
      destruct NN as [N1 N2]. rewrite N1, N2. cbn [negb andb]. rewrite orb_true_r. cbn [assert].
      destruct (TV i k L1 ltac:(lia)) as (v1 & V1 & O1). destruct (TV k j L2 JN) as (v2 & V2 & O2).
      apply (@st_get_ok _ dbg valid n i k v1 OV) in V1; try lia. apply (@st_get_ok _ dbg valid n k j v2 OV) in V2; try lia.
      rewrite V1. cbn [bind]. rewrite V2. cbn [bind].
      assert (KEEP : (forall T1 T2, okv i k -> okv k j -> vtri i k T1 -> vtri k j T2 -> match fst b with Fin w => w <== tot ((i, k, j) :: T1 ++ T2) | _ => False end) ->
        best_inv s i j (fun q => done q \/ q = k) b).
      { intros Q. destruct b as [[|w|] [kb|]]; cbn in B |- *; try tauto.
        - destruct B as (D & B1 & B2 & B3 & B4 & B5 & B6). do 5 (split; [tauto|]). split; auto.
          intros k' T1 T2 [D'| ->]; [eauto|]. intros. apply Q; auto.
        - intros k' T1 T2 [D'| ->]; [eauto|]. intros. exact (Q T1 T2 H H0 H1 H2). }
      assert (FIN : forall b0, best_inv s i j (fun q => done q \/ q = k) b0 ->
        exists b', best_k addW ltW distance dbg m valid vs i j ks b0 = Ok b' /\ best_inv s i j (fun q => done q \/ In q (k :: ks)) b').
      { intros b0 B0. destruct (IH (fun q => done q \/ q = k) b0) as (b' & E & B'); auto.
        { intros q I. apply R. right. auto. }
        exists b'. split; auto. clear -B'. destruct b' as [[|w|] [kb|]]; cbn in *; try tauto.
        - destruct B' as (D & B1 & B2 & B3 & B4 & B5 & B6). split; [intuition|]. do 4 (split; [tauto|]). split; auto.
          intros k' T1 T2 D'. apply B6. intuition.
        - intros k' T1 T2 D'. apply B'. intuition. }
      destruct (negb v1 || negb v2) eqn:NV.
      { apply FIN, KEEP. intros T1 T2 X1 X2. apply O1 in X1. apply O2 in X2. subst. discriminate. }
      apply orb_false_iff in NV as [NV1 NV2]. apply negb_false_iff in NV1, NV2. subst v1 v2.
      pose proof (proj1 O1 eq_refl) as OK1. pose proof (proj1 O2 eq_refl) as OK2.
      destruct (@at_pos i ltac:(lia)) as (pa & -> & PA & _). destruct (@at_pos j JN) as (pb & -> & PB & _).
      destruct (@at_pos k ltac:(lia)) as (pc & -> & PC & _). cbn [bind]. rewrite PA, PB, PC.
      assert (TW : triangle_weight addW distance (pos vs i) (pos vs j) (pos vs k) = per (i, k, j)) by reflexivity. rewrite TW.
      destruct x1 as [|w1|]; [tauto| |].
      2:{ apply FIN. replace (ext_lt _ _ _) with false. 2:{ destruct x2; [tauto| |]; cbn; destruct (fst b) as [| |] eqn:FB; auto; destruct b as [[] []]; cbn in *; tauto. }
          apply KEEP. intros T1 T2 _ _ V. exfalso. eapply (proj2 C1); eauto. }
      destruct x2 as [|w2|]; [tauto| |].
      2:{ apply FIN. replace (ext_lt _ _ _) with false. 2:{ cbn; destruct (fst b) as [| |] eqn:FB; auto; destruct b as [[] []]; cbn in *; tauto. }
          apply KEEP. intros T1 T2 _ _ _ V. exfalso. eapply (proj2 C2); eauto. }
      destruct C1 as [(T1 & TB1 & W1) M1], C2 as [(T2 & TB2 & W2) M2].
      cbn [ext_add]. set (cost := addW (addW w1 w2) (per (i, k, j))).
      assert (CO : tot ((i, k, j) :: T1 ++ T2) = cost).
      { cbn [total]. rewrite tot_app, W1, W2. unfold cost. apply (w_comm OW). }
      assert (CM : forall T1' T2', vtri i k T1' -> vtri k j T2' -> cost <== tot ((i, k, j) :: T1' ++ T2')).
      { intros T1' T2' X1 X2. cbn [total]. rewrite tot_app. unfold cost. rewrite (w_comm OW _ (per _)).
        apply le_add; [apply le_refl|]. apply le_add; auto. }
      destruct b as [xb ob]. cbn [fst] in *. destruct (ext_lt ltW (Fin cost) xb) eqn:LT.
      + apply FIN. cbn. split; [auto|]. do 4 (split; [auto|]). split; [exists T1, T2; auto|].
        intros k' T1' T2' [D| ->]; [|intros; apply CM; auto]. intros X1 X2 X3 X4.
        destruct xb as [|wb|]; [destruct ob; cbn in B; tauto| |].
        * destruct ob as [kb|]; [|destruct B]. destruct B as (_ & _ & _ & _ & _ & _ & B6). cbn in LT.
          apply (w_trans OW) with wb; [apply (w_asym OW); auto|]. eauto.
        * destruct ob; [destruct B|]. exfalso. eapply B; eauto.
      + apply FIN, KEEP. intros T1' T2' _ _ X1 X2. destruct xb as [|wb|]; cbn in LT.
        * destruct ob; destruct B.
        * apply (w_trans OW) with cost; auto.
        * discriminate.
  Qed.

  Definition rows_done (m : store ext) (s : store (option nat)) (l r : nat) : Prop :=
    st_ok m n /\ st_ok s n /\ forall a b, a < b -> b < n -> (b - a < l \/ (b - a = l /\ a < r)) -> cell m s a b.

  Lemma fill_app valid c1 c2 ms : fill_cells addW ltW distance dbg valid vs (c1 ++ c2) ms =
    (let* ms := fill_cells addW ltW distance dbg valid vs c1 ms in fill_cells addW ltW distance dbg valid vs c2 ms).
  Proof.
    revert ms. induction c1 as [|[i j] c1 IH]; intros ms; [reflexivity|]. cbn [app fill_cells].
    destruct (best_k _ _ _ _ _ _ _ _ _ _ _) as [b| |]; cbn [bind]; auto.
    destruct (st_set _ (fst ms) _ _ _) as [m| |]; cbn [bind]; auto.
    destruct (st_set _ (snd ms) _ _ _) as [s| |]; cbn [bind]; auto.
  Qed.

  Lemma cell_frame m m' s s' a b i j : cell m s a b -> a < b -> (a, b) <> (i, j) -> b - a <= j - i ->
    (forall i' j', i' < j' -> (i', j') <> (i, j) -> ent m' i' j' = ent m i' j') ->
    (forall i' j', i' < j' -> (i', j') <> (i, j) -> ent s' i' j' = ent s i' j') -> cell m' s' a b.
  Proof.
    intros C L NE LE FM FS. unfold cell in *. rewrite FM by auto.
    destruct (ent m a b) as [[|w|]|]; auto.
    2:{ destruct C as [C1 C2]. split; auto. rewrite FS; auto. }
    destruct C as [(T & TB & TW) M]. split; auto.
    exists T. split; auto. eapply tb_frame; eauto. intros x y X1 X2 X3. apply FS; auto. intros E. injection E as -> ->. apply NE.
    f_equal; lia.
  Qed.

  Lemma fill_row valid l : tbl_ok valid -> 2 <= l -> forall k r m s, rows_done m s l r -> r + k + l <= n ->
    exists m' s', fill_cells addW ltW distance dbg valid vs (map (fun i => (i, i + l)) (seq r k)) (m, s) = Ok (m', s') /\ rows_done m' s' l (r + k).
  Proof.
    intros TV L2. induction k as [|k IH]; intros r m s (OM & OS & D) LE.
    - exists m, s. split; auto. rewrite Nat.add_0_r. split; auto.
    - cbn [seq map fill_cells fst snd].
      destruct (@best_k_ok valid m s r (r + l) TV OM ltac:(lia)) with (ks := seq (r + 1) (r + l - (r + 1))) (done := fun _ : nat => False) (b := (@PosInf W, @None nat)) as (b & E & BI).
      + intros a b' L1 L3 L4. apply D; auto. left. lia.
      + intros q I. apply in_seq in I. lia.
      + cbn. tauto.
      + rewrite E. cbn [bind].
        destruct (@st_set_ok _ dbg m n r (r + l) (fst b) OM ltac:(lia) ltac:(lia)) as (m' & -> & OM' & EM & FM). cbn [bind].
        destruct (@st_set_ok _ dbg s n r (r + l) (snd b) OS ltac:(lia) ltac:(lia)) as (s' & -> & OS' & ES & FS). cbn [bind].
        destruct (IH (S r) m' s') as (m2 & s2 & E2 & R2); try lia.
        2:{ exists m2, s2. split; auto. rewrite Nat.add_succ_r. auto. }
        split; auto. split; auto. intros a b' La Lb H.
        destruct (prod_eqdec Nat.eq_dec Nat.eq_dec (a, b') (r, r + l)) as [EQ|NE].
        * injection EQ as -> ->. unfold cell. rewrite EM. clear IH E FM EM.
          destruct b as [[|w|] [kb|]]; cbn [fst snd best_inv] in *; try tauto.
          -- destruct BI as (_ & B1 & B2 & B3 & B4 & (T1 & T2 & TB1 & TB2 & TW) & M). split.
             ++ exists ((r, kb, r + l) :: T1 ++ T2). split; auto. constructor; auto.
                ** eapply tb_frame; [exact TB1|]. intros x y X1 X2 X3. apply FS; auto. intros Q. injection Q. lia.
                ** eapply tb_frame; [exact TB2|]. intros x y X1 X2 X3. apply FS; auto. intros Q. injection Q. lia.
             ++ intros T V. inversion V as [i Q1 Q2|i k0 j U1 U2 K1 K2 O1 O2 V1 V2 Q1]; subst; [lia|].
                apply M; auto. right. apply in_seq. lia.
          -- split; auto. intros T V. inversion V as [i Q1 Q2|i k0 j U1 U2 K1 K2 O1 O2 V1 V2 Q1]; subst; [lia|].
             eapply BI with (k' := k0); eauto. right. apply in_seq. lia.
        * eapply cell_frame with (m := m) (s := s) (i := r) (j := r + l); auto; try lia.
          apply D; auto. destruct H as [H|[H1 H2]]; [left; auto|]. right. split; auto.
          assert (a <> r) by (intros ->; apply NE; f_equal; lia). lia.
  Qed.

  Lemma fill_rows valid : tbl_ok valid -> forall k l m s, 2 <= l -> l + k <= n -> rows_done m s l 0 ->
    exists m' s', fill_cells addW ltW distance dbg valid vs (flat_map (fun l => map (fun i => (i, i + l)) (seq 0 (n - l))) (seq l k)) (m, s) = Ok (m', s') /\
      rows_done m' s' (l + k) 0.
  Proof.
    intros TV. induction k as [|k IH]; intros l m s L2 LE R.
    - exists m, s. split; auto. rewrite Nat.add_0_r. auto.
    - cbn [seq flat_map]. rewrite fill_app.
      destruct (@fill_row valid l TV L2 (n - l) 0 m s R ltac:(lia)) as (m1 & s1 & E1 & R1). rewrite E1. cbn [bind].
      destruct (IH (S l) m1 s1) as (m2 & s2 & E2 & R2); try lia.
      { destruct R1 as (A & B & D). split; auto. split; auto. intros a b L1 L3 H. apply D; auto. lia. }
      exists m2, s2. split; auto. replace (l + S k) with (S l + k) by lia. auto.
  Qed.

  Lemma traceback_ok s : st_ok s n -> forall fuel i j T, tb s i j T -> j - i < fuel -> j < n ->
    traceback fuel dbg s vs i j = Ok (map (fun t => match t with (a, b, c) => (idx vs a, idx vs b, idx vs c) end) T).
  Proof.
    intros O. induction fuel as [|fuel IH]; intros i j T TB F JN; [lia|].
    inversion TB as [i' Q1 Q2|i' k j' T1 T2 L1 L2 E O1 O2 H1 H2 Q1]; subst.
    - cbn [traceback]. destruct (Nat.ltb_spec (S i - i) 2); [reflexivity|lia].
    - cbn [traceback]. destruct (Nat.ltb_spec (j - i) 2); [lia|].
      apply (@st_get_ok _ dbg s n i j (Some k) O) in E; auto; try lia. rewrite E. cbn [bind unwrap].
      replace (negb dbg || _) with true.
      2:{ symmetry. apply orb_true_iff. right. rewrite andb_true_iff, !Nat.ltb_lt. auto. }
      cbn [assert]. destruct (@at_pos i ltac:(lia)) as (pa & -> & _ & PA). destruct (@at_pos k ltac:(lia)) as (pk & -> & _ & PK).
      destruct (@at_pos j JN) as (pj & -> & _ & PJ). cbn [bind].
      rewrite (IH _ _ _ H1) by lia. cbn [bind]. rewrite (IH _ _ _ H2) by lia. cbn [bind]. rewrite PA, PK, PJ.
      cbn [map]. rewrite map_app. auto.
  Qed.

  Definition globalize (T : list (nat * nat * nat)) : list (nat * nat * nat) :=
    map (fun t => match t with (a, b, c) => (idx vs a, idx vs b, idx vs c) end) T.

  Lemma minweight_cases : 4 <= n ->
    (exists T, minweight_dynamic_direct addW ltW zeroW distance dbg vd vs = Ok (globalize T) /\
       vtri 0 (n - 1) T /\ forall T', vtri 0 (n - 1) T' -> tot T <== tot T') \/
    (minweight_dynamic_direct addW ltW zeroW distance dbg vd vs = Panic /\ forall T, ~ vtri 0 (n - 1) T).
  Proof.
    intros N4. unfold minweight_dynamic_direct. fold n. destruct (Nat.leb_spec 4 n); [|lia]. cbn [assert].
    destruct init_ok as (m & -> & OM & AM); [lia|]. cbn [bind].
    destruct (@st_new_ok _ n (@None nat) ltac:(lia)) as (s & -> & OS & NS). cbn [bind].
    destruct valid_ok as (v & -> & TV); [lia|]. cbn [bind]. unfold cells. replace (n - 1 + 1 - 2) with (n - 2) by lia.
    destruct (@fill_rows v TV (n - 2) 2 m s ltac:(lia) ltac:(lia)) as (m' & s' & E & (OM' & OS' & D)).
    { split; auto. split; auto. intros a b L1 L2 HH. assert (b = S a) as -> by lia.
      unfold cell. rewrite AM by lia. split.
      - exists []. split; auto. constructor.
      - intros T V. inversion V; subst; [apply le_refl|lia]. }
    rewrite E. cbn [bind snd].
    specialize (D 0 (n - 1) ltac:(lia) ltac:(lia) ltac:(lia)). unfold cell in D.
    destruct (ent m' 0 (n - 1)) as [[|w|]|] eqn:EM; try tauto.
    - left. destruct D as [(T & TB & <-) M]. exists T. split; [apply traceback_ok; auto; lia|]. split; auto. eapply tb_vtri; eauto.
    - right. destruct D as [D1 D2]. split; auto. destruct n as [|n'] eqn:EN; [lia|]. cbn [traceback].
      destruct (Nat.ltb_spec (S n' - 1 - 0) 2); [lia|].
      assert (OS2 : st_ok s' n) by (rewrite EN; auto).
      apply (@st_get_ok _ dbg s' n 0 (S n' - 1) None OS2) in D1; try lia. rewrite D1. auto.
  Qed.

  Lemma vtri_range i j T : vtri i j T -> forall a b c, In (a, b, c) T -> i <= a /\ a < b /\ b < c /\ c <= j.
  Proof.
    induction 1 as [i|i k j T1 T2 L1 L2 O1 O2 V1 IH1 V2 IH2]; intros a b c I; [destruct I|].
    destruct I as [I|I].
    - injection I as <- <- <-. lia.
    - apply in_app_or in I as [I|I]; [apply IH1 in I|apply IH2 in I]; lia.
  Qed.

  Lemma triangulates_seq_vtri T : 2 <= n -> triangulates (seq 0 n) T -> uses_valid vd n T -> exists T', vtri 0 (n - 1) T' /\ tot T' = tot T.
  Proof.
    intros N (a & l & b & E & H) UV. 
    assert (LL : n = S (S (length l))) by (rewrite <- (seq_length n 0), E; cbn; rewrite app_length; cbn; lia).
    rewrite LL in E. cbn [seq] in E. injection E as <- E.
    change (1 :: seq 2 (length l)) with (seq 1 (S (length l))) in E.
    rewrite seq_S in E. cbn [Nat.add] in E. apply app_inj_tail in E as [E1 E2].
    replace (n - 1) with b by lia.
    eapply tri_vtri; eauto; lia.
  Qed.
  Lemma vtri_triangulates T : 2 <= n -> vtri 0 (n - 1) T -> triangulates (seq 0 n) T /\ uses_valid vd n T.
  Proof.
    intros N V. split.
    - exists 0, (seq 1 (n - 1 - 1)), (n - 1). split; [|apply (vtri_tri V)].
      replace n with (S (S (n - 1 - 1))) at 1 by lia. cbn [seq]. f_equal.
      change (1 :: seq 2 (n - 1 - 1)) with (seq 1 (S (n - 1 - 1))). rewrite seq_S. f_equal. f_equal. lia.
    - eapply vtri_valid; eauto. unfold usable. auto.
  Qed.
End MW.

Lemma tri_corners (V : Type) (a : V) l b T : tri a l b T -> forall x y z, In (x, y, z) T ->
  In x (a :: l ++ [b]) /\ In y (a :: l ++ [b]) /\ In z (a :: l ++ [b]).
Proof.
  induction 1 as [|a l1 k l2 b T1 T2 H1 IH1 H2 IH2|a l b T T' PM H IH|a l b u v w T H IH]; intros x y z I.
  - destruct I.
  - assert (S1 : forall q, In q (a :: l1 ++ [k]) -> In q (a :: (l1 ++ k :: l2) ++ [b])).
    { intros q [Q|Q]; [left; auto|right]. apply in_app_or in Q as [Q|[Q|[]]]; rewrite !in_app_iff; cbn; auto. }
    assert (S2 : forall q, In q (k :: l2 ++ [b]) -> In q (a :: (l1 ++ k :: l2) ++ [b])).
    { intros q [Q|Q]; right; [rewrite !in_app_iff; cbn; auto|]. apply in_app_or in Q as [Q|Q]; rewrite !in_app_iff; cbn; auto. }
    destruct I as [I|I].
    + injection I as <- <- <-. cbn. rewrite !in_app_iff. cbn. auto 8.
    + apply in_app_or in I as [I|I]; [destruct (IH1 _ _ _ I) as (? & ? & ?)|destruct (IH2 _ _ _ I) as (? & ? & ?)]; auto.
  - apply IH. eapply Permutation_in; [apply Permutation_sym; eauto|auto].
  - destruct I as [I|I].
    + injection I as <- <- <-. destruct (IH u v w (or_introl eq_refl)) as (? & ? & ?). auto.
    + apply IH. right. auto.
Qed.
Lemma triangulates_corners (V : Type) (p : list V) T : triangulates p T -> forall x y z, In (x, y, z) T -> In x p /\ In y p /\ In z p.
Proof. intros (a & l & b & -> & H). apply (tri_corners H). Qed.

Section Wrap.
  Variables (P W : Type) (addW : W -> W -> W) (ltW : W -> W -> bool) (zeroW : W) (distance : P -> P -> W).
  Hypothesis OW : weights addW ltW zeroW.
  Variables (vd : nat -> nat -> bool) (dbg : bool) (ps : nat -> P) (ind : nat -> nat) (n : nat).
  Lemma vlist_len : length (vlist ps ind n) = n.
  Proof. unfold vlist. rewrite map_length, seq_length. auto. Qed.
  Lemma vlist_nth i : i < n -> nth_error (vlist ps ind n) i = Some (ps i, ind i).
  Proof.
    intros L. unfold vlist. rewrite nth_error_map. destruct (nth_error (seq 0 n) i) as [k|] eqn:E.
    - cbn. apply nth_error_nth with (d := 0) in E. rewrite seq_nth in E by auto. cbn in E. subst. auto.
    - apply nth_error_None in E. rewrite seq_length in E. lia.
  Qed.
  Lemma total_ext (d d' : nat -> nat -> W) (T : list (nat * nat * nat)) :
    (forall a b, a < n -> b < n -> d a b = d' a b) -> (forall a b c, In (a, b, c) T -> a < n /\ b < n /\ c < n) ->
    total addW zeroW d T = total addW zeroW d' T.
  Proof.
    intros D H. induction T as [|[[a b] c] T IH]; [reflexivity|]. cbn. rewrite IH by (intros; apply H; right; auto).
    destruct (H a b c (or_introl eq_refl)) as (? & ? & ?). rewrite !D; auto.
  Qed.
  Definition dP a b := distance (ps a) (ps b).
  Lemma minweight_full : 4 <= n ->
    (exists L, minweight_dynamic_direct addW ltW zeroW distance dbg vd (vlist ps ind n) = Ok (map (relabel ind) L) /\
       triangulates (seq 0 n) L /\ uses_valid vd n L /\
       forall L', triangulates (seq 0 n) L' -> uses_valid vd n L' ->
         ltW (total addW zeroW dP L') (total addW zeroW dP L) = false) \/
    (minweight_dynamic_direct addW ltW zeroW distance dbg vd (vlist ps ind n) = Panic /\
       forall L', triangulates (seq 0 n) L' -> ~ uses_valid vd n L').
  Proof.
    intros N4. set (vs := vlist ps ind n). pose proof vlist_len as LN. fold vs in LN.
    set (d := fun a b => distance (pos (ps 0) vs a) (pos (ps 0) vs b)).
    assert (DE : forall a b, a < n -> b < n -> d a b = dP a b).
    { intros a b A B. unfold d, dP, pos, vs. rewrite !vlist_nth; auto. }
    assert (R : forall L, triangulates (seq 0 n) L -> forall a b c, In (a, b, c) L -> a < n /\ b < n /\ c < n).
    { intros L H a b c I. destruct (triangulates_corners H I) as (A & B & C). apply in_seq in A, B, C. lia. }
    destruct (@minweight_cases P W addW ltW zeroW distance OW vd vs dbg (ps 0)) as [(T & E & V & M)|(E & M)]; [rewrite LN; auto| |].
    - left. rewrite LN in V, M. exists T.
      destruct (@vtri_triangulates P W distance vd vs (ps 0) T ltac:(lia)) as [TR UV]; [rewrite LN; auto|]. rewrite LN in TR, UV.
      split; [|split; [auto|split; [auto|]]].
      + rewrite E. f_equal. unfold globalize. apply map_ext_in. intros [[a b] c] I. destruct (R _ TR _ _ _ I) as (A & B & C).
        unfold idx, vs. rewrite !vlist_nth; auto.
      + intros L' TR' UV'. destruct (@triangulates_seq_vtri P W addW ltW zeroW distance OW vd vs (ps 0) L' ltac:(lia)) as (T' & V' & TE); rewrite ?LN; auto.
        rewrite LN in V'. specialize (M _ V'). rewrite TE in M.
        rewrite <- (total_ext DE (R _ TR')), <- (total_ext DE (R _ TR)). exact M.
    - right. split; auto. intros L' TR' UV'. rewrite LN in M.
      destruct (@triangulates_seq_vtri P W addW ltW zeroW distance OW vd vs (ps 0) L' ltac:(lia)) as (T' & V' & TE); rewrite ?LN; auto.
      rewrite LN in V'. exact (M _ V').
  Qed.
  Lemma minweight_small : n < 4 -> minweight_dynamic_direct addW ltW zeroW distance dbg vd (vlist ps ind n) = Panic.
  Proof.
    intros L. unfold minweight_dynamic_direct. rewrite vlist_len. destruct (Nat.leb_spec 4 n); [lia|]. reflexivity.
  Qed.
End Wrap.
Lemma nat_weights : weights Nat.add Nat.ltb 0.
Proof.
  constructor; intros; rewrite ?Nat.ltb_ge, ?Nat.ltb_lt in *; lia.
Qed.
