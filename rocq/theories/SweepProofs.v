(** The sweep covers the polygon, whatever the geometric predicates answer. *)
From Coq Require Import List Arith Bool Lia ZArith Permutation.
From Verif Require Import Base Mesh Tess Monotone TriSpec TriFacts BufferSpec BufferProofs MonoSpec LinearProofs MonoLaw AlgProofs Sweep SweepSpec.
Import ListNotations.
Set Implicit Arguments.
Unset Strict Implicit.
Local Open Scope nat_scope.

(** ** Indices modulo n *)
Section Mod.
  Variable n : nat.
  Hypothesis n3 : 3 <= n.
  Lemma next_small i : i < n -> next_of n i = if S i =? n then 0 else S i.
  Proof.
    intros H. unfold next_of. destruct (S i =? n) eqn:E.
    - apply Nat.eqb_eq in E. replace (i + 1) with n by lia. apply Nat.mod_same. lia.
    - apply Nat.eqb_neq in E. rewrite Nat.mod_small; lia.
  Qed.
  Lemma prev_small i : i < n -> prev_of n i = if i =? 0 then n - 1 else i - 1.
  Proof.
    intros H. unfold prev_of. destruct (i =? 0) eqn:E.
    - apply Nat.eqb_eq in E. subst. cbn. apply Nat.mod_small. lia.
    - apply Nat.eqb_neq in E. replace (i + n - 1) with (i - 1 + 1 * n) by lia. rewrite Nat.mod_add by lia. apply Nat.mod_small. lia.
  Qed.
  Ltac sm := repeat match goal with
    | |- context [next_of n ?i] => rewrite (@next_small i) by lia
    | |- context [prev_of n ?i] => rewrite (@prev_small i) by lia
    | |- context [?a =? ?b] => destruct (Nat.eqb_spec a b)
    end.
  Lemma next_lt i : next_of n i < n. Proof. apply Nat.mod_upper_bound. lia. Qed.
  Lemma prev_lt i : prev_of n i < n. Proof. apply Nat.mod_upper_bound. lia. Qed.
  Lemma prev_next i : i < n -> prev_of n (next_of n i) = i. Proof. intros H. sm; lia. Qed.
  Lemma next_prev i : i < n -> next_of n (prev_of n i) = i. Proof. intros H. sm; lia. Qed.
  Lemma next_ne i : i < n -> next_of n i <> i. Proof. intros H. sm; lia. Qed.
  Lemma prev_ne i : i < n -> prev_of n i <> i. Proof. intros H. sm; lia. Qed.
  Lemma next_inj i j : i < n -> j < n -> next_of n i = next_of n j -> i = j.
  Proof. intros A B E. rewrite <- (prev_next A), E. apply prev_next; auto. Qed.
End Mod.

Section Proofs.
  Variables (M : mono) (idx : nat -> nat) (pre : list nat).
  Variable L : lawful M idx pre.
  Variable n : nat.
  Hypothesis n3 : 3 <= n.
  Notation nxt := (next_of n).
  Notation prv := (prev_of n).
  Notation gd := (good L).
  Notation iv := (inv L).
  Notation buf T := (pre ++ flatten T).

  Definition nt (a b : nat) (u w : nat) : Z := net [(idx a, idx b)] u w.
  Lemma nt_rev a b u w : nt b a u w = (- nt a b u w)%Z.
  Proof. unfold nt. rewrite net_rev1. lia. Qed.
  Definition wE (c : gc) u w : Z := (net (path (map idx (g_path c))) u w - g_E c u w)%Z.
  Definition wk (c : gc) : Z := (zlen (g_path c) - 2 - g_k c)%Z.
  Definition fresh (v : nat) : gc := mkG v [] (fun _ _ => 0%Z) 0%Z.

  (** ** One chain *)
  Lemma path_ends v ops : exists m, (grow [v] ops = [v] /\ lastL (mkG v ops (fun _ _ => 0%Z) 0%Z) = v /\ lastR (mkG v ops (fun _ _ => 0%Z) 0%Z) = v) \/
    grow [v] ops = lastR (mkG v ops (fun _ _ => 0%Z) 0%Z) :: m ++ [lastL (mkG v ops (fun _ _ => 0%Z) 0%Z)].
  Proof.
    induction ops as [|[b x] ops IH] using rev_ind; [exists []; left; auto|].
    destruct IH as (m & IH). rewrite grow_snoc. unfold lastL, lastR in *. cbn [g_v g_ops] in *. rewrite !side_snoc.
    destruct b; cbn [Bool.eqb]; rewrite ?app_nil_r, last_snoc; unfold ext; cbn [dside].
    - destruct IH as [(E & A & B)|E]; rewrite E.
      + exists []. right. cbn. rewrite B. reflexivity.
      + exists (m ++ [last (side_of true ops) v]). right. reflexivity.
    - destruct IH as [(E & A & B)|E]; rewrite E.
      + exists []. right. cbn. rewrite A. reflexivity.
      + exists (last (side_of false ops) v :: m). right. reflexivity.
  Qed.
  Lemma net_path_snoc l a x u w : net (path (map idx ((l ++ [a]) ++ [x]))) u w = (net (path (map idx (l ++ [a]))) u w + nt a x u w)%Z.
  Proof. rewrite <- app_assoc. cbn. rewrite !map_app. cbn. rewrite path_app, net_app. reflexivity. Qed.
  Lemma net_path_cons x a l u w : net (path (map idx (x :: a :: l))) u w = (nt x a u w + net (path (map idx (a :: l))) u w)%Z.
  Proof. cbn. rewrite net_cons. reflexivity. Qed.

  Lemma op_ok T s c b x s' ix' : gd T -> iv s c (length T) -> @m_step M (s, buf T) (b, x) = Ok (s', ix') ->
    exists T' c', ix' = buf T' /\ gd T' /\ iv s' c' (length T') /\ length T <= length T' /\
      lastL c' = (if b then x else lastL c) /\ lastR c' = (if b then lastR c else x) /\ g_ops c' = g_ops c ++ [(b, x)] /\
      (forall u w, tnet T' u w + wE c' u w = tnet T u w + wE c u w + (if b then nt (lastL c) x u w else nt x (lastR c) u w))%Z /\
      (zlen T' + wk c' = zlen T + wk c + 1)%Z.
  Proof.
    intros G I H. destruct (law_op G I H) as (T' & c' & E & G' & I' & Le & Ev & Eo & EE & EK).
    exists T', c'. split; auto. split; auto. split; auto. split; auto.
    assert (P : g_path c' = if b then g_path c ++ [x] else x :: g_path c).
    { unfold g_path. rewrite Ev, Eo, grow_snoc. destruct b; reflexivity. }
    split. { unfold lastL. rewrite Ev, Eo, side_snoc. destruct b; cbn [Bool.eqb]; rewrite ?last_snoc, ?app_nil_r; reflexivity. }
    split. { unfold lastR. rewrite Ev, Eo, side_snoc. destruct b; cbn [Bool.eqb]; rewrite ?last_snoc, ?app_nil_r; reflexivity. }
    split; auto. split.
    - intros u w. unfold wE. specialize (EE u w). rewrite P.
      destruct (path_ends (g_v c) (g_ops c)) as (m & Q).
      change (grow [g_v c] (g_ops c)) with (g_path c) in Q.
      change (lastL (mkG (g_v c) (g_ops c) (fun _ _ => 0%Z) 0%Z)) with (lastL c) in Q.
      change (lastR (mkG (g_v c) (g_ops c) (fun _ _ => 0%Z) 0%Z)) with (lastR c) in Q.
      destruct b.
      + assert (exists l, g_path c = l ++ [lastL c]) as (l & Hl).
        { destruct Q as [(Q1 & Q2 & _)|Q]; [exists []; rewrite Q1, Q2; auto|exists (lastR c :: m); exact Q]. }
        rewrite Hl, net_path_snoc. lia.
      + assert (exists l, g_path c = lastR c :: l) as (l & Hl).
        { destruct Q as [(Q1 & _ & Q2)|Q]; [exists []; rewrite Q1, Q2; auto|exists (m ++ [lastL c]); exact Q]. }
        rewrite Hl, net_path_cons. lia.
    - unfold wk. rewrite P. unfold zlen in *. destruct b; rewrite ?app_length; cbn [length]; lia.
  Qed.

  Lemma new_ok v len : iv (m_new M v) (fresh v) len /\ lastL (fresh v) = v /\ lastR (fresh v) = v /\
    (forall u w, wE (fresh v) u w = 0%Z) /\ wk (fresh v) = (-1)%Z.
  Proof. split; [apply (law_new L)|]. repeat split. Qed.

  Lemma c_ends c : (exists l, g_path c = l ++ [lastL c]) /\ (exists l, g_path c = lastR c :: l) /\
    (forall u w, net (poly_edges (map idx (g_poly c))) u w = net (path (map idx (g_path c))) u w + nt (lastL c) (lastR c) u w)%Z.
  Proof.
    destruct (path_ends (g_v c) (g_ops c)) as (m & Q).
    change (grow [g_v c] (g_ops c)) with (g_path c) in Q.
    change (lastL (mkG (g_v c) (g_ops c) (fun _ _ => 0%Z) 0%Z)) with (lastL c) in Q.
    change (lastR (mkG (g_v c) (g_ops c) (fun _ _ => 0%Z) 0%Z)) with (lastR c) in Q.
    split; [|split].
    - destruct Q as [(Q1 & Q2 & _)|Q]; [exists []; rewrite Q1, Q2; auto|exists (lastR c :: m); exact Q].
    - destruct Q as [(Q1 & _ & Q2)|Q]; [exists []; rewrite Q1, Q2; auto|exists (m ++ [lastL c]); exact Q].
    - intros u w. destruct (grow_poly (g_v c) (g_ops c)) as (p & q & E1 & E2).
      unfold g_poly. rewrite E2, map_app, (net_perm u w (poly_edges_rot (map idx q) (map idx p))), <- map_app, <- E1.
      change (grow [g_v c] (g_ops c)) with (g_path c). destruct Q as [(Q1 & Q2 & Q3)|Q].
      + rewrite Q1, Q2, Q3. cbn. reflexivity.
      + rewrite Q. cbn [map]. rewrite map_app. cbn [map]. rewrite poly_edges_path, net_app. reflexivity.
  Qed.
  Lemma fin_ok T s c ix' : gd T -> iv s c (length T) -> g_ops c <> [] -> @m_finish M s (buf T) = Ok ix' ->
    exists T', ix' = buf T' /\ gd T' /\ length T <= length T' /\
      (forall u w, tnet T' u w = tnet T u w + wE c u w + nt (lastL c) (lastR c) u w)%Z /\ (zlen T' = zlen T + wk c)%Z.
  Proof.
    intros G I N H. destruct (law_finish G I N H) as (T' & E & G' & Le & EE & EK).
    exists T'. split; auto. split; auto. split; auto. destruct (c_ends c) as (_ & _ & C). split.
    - intros u w. specialize (EE u w). rewrite C in EE. unfold wE. lia.
    - unfold wk. replace (zlen (g_path c)) with (zlen (g_poly c)); [lia|]. unfold zlen, g_poly, g_path. f_equal.
      destruct (grow_poly (g_v c) (g_ops c)) as (p & q & -> & ->). rewrite !app_length. lia.
  Qed.

  (** ** Intervals and the status table *)
  Definition gi := (gc * option gc)%type.
  Definition giE u w (g : gi) : Z := (wE (fst g) u w + match snd g with Some f => wE f u w | None => 0 end)%Z.
  Definition gik (g : gi) : Z := (wk (fst g) + match snd g with Some f => wk f + 1 | None => 0 end)%Z.
  Definition IV (len : nat) (D : list nat) (I : interval M) (g : gi) : Prop :=
    In (fst (i_left I)) D /\ snd (i_left I) = nxt (fst (i_left I)) /\
    In (fst (i_right I)) D /\ snd (i_right I) = prv (fst (i_right I)) /\
    iv (i_chain I) (fst g) len /\ lastL (fst g) = fst (i_left I) /\
    match i_fixup I, snd g with
    | None, None => lastR (fst g) = fst (i_right I) /\ (m_is_right (i_chain I) = true -> i_helper I = fst (i_right I))
    | Some fx, Some f => iv fx f len /\ lastR (fst g) = lastL f /\ lastR f = fst (i_right I) /\ m_is_right fx = false
    | _, _ => False
    end.
  Lemma IV_grow len len' D D' I g : IV len D I g -> len <= len' -> incl D D' -> IV len' D' I g.
  Proof.
    intros (A & B & C & E & F & G & H) Le Ic. split; auto. split; auto. split; auto. split; auto.
    split; [eapply law_grow; eauto|]. split; auto. destruct (i_fixup I), (snd g); auto. destruct H as (H1 & H2).
    split; auto. eapply law_grow; eauto.
  Qed.

  Definition gsum (f : gi -> Z) (G : list (option gi)) : Z :=
    fold_right (fun o z => match o with Some g => f g + z | None => z end)%Z 0%Z G.
  Definition fo (f : gi -> Z) (o : option gi) : Z := match o with Some g => f g | None => 0%Z end.
  Lemma gsum_upd f : forall G k o o', nth_error G k = Some o -> (gsum f (upd G k o') = gsum f G - fo f o + fo f o')%Z.
  Proof.
    induction G as [|x G IH]; intros [|k] o o' H; try discriminate.
    - injection H as ->. cbn. destruct o, o'; cbn; lia.
    - cbn in H. specialize (IH k o o' H). change (upd (x :: G) (S k) o') with (x :: upd G k o').
      cbn [gsum fold_right]. unfold gsum in IH. destruct x; rewrite IH; lia.
  Qed.

  Record tab (st : status M) (G : list (option gi)) (D : list nat) (len : nat) : Prop := mkTab {
    t_len : length (s_left st) = n /\ length (s_right st) = n /\ length G = n;
    t_iv : forall k I, nth_error (s_left st) k = Some (Some I) -> exists g, nth_error G k = Some (Some g) /\ IV len D I g /\
      snd (i_left I) = k /\ nth_error (s_right st) (snd (i_right I)) = Some (Some k);
    t_none : forall k, nth_error (s_left st) k = Some None -> nth_error G k = Some None;
    t_right : forall j k, nth_error (s_right st) j = Some (Some k) -> exists I, nth_error (s_left st) k = Some (Some I) /\ snd (i_right I) = j }.
  Lemma tab_grow st G D D' len len' : tab st G D len -> len <= len' -> incl D D' -> tab st G D' len'.
  Proof.
    intros [A B C E] Le Ic. split; auto. intros k I H. destruct (B k I H) as (g & H1 & H2 & H3 & H4). exists g. eauto using IV_grow.
  Qed.
  Definition without (st : status M) (I : interval M) : status M :=
    mkS (upd (s_left st) (snd (i_left I)) None) (upd (s_right st) (snd (i_right I)) None).
  Definition plus_ (st : status M) (I : interval M) : status M :=
    mkS (upd (s_left st) (snd (i_left I)) (Some I)) (upd (s_right st) (snd (i_right I)) (Some (snd (i_left I)))).

  Lemma some_lt A (l : list A) k x : nth_error l k = Some x -> k < length l.
  Proof. intros H. apply nth_error_Some. congruence. Qed.
  Lemma nth_error_ext A (l : list A) : forall l', (forall j, nth_error l j = nth_error l' j) -> l = l'.
  Proof.
    induction l as [|x l IH]; intros [|y l'] H; auto; try (specialize (H 0); discriminate).
    f_equal; [specialize (H 0); cbn in H; congruence|]. apply IH. intros j. apply (H (S j)).
  Qed.
  Lemma upd_cases A (l : list A) k x j y : nth_error (upd l k x) j = Some y -> (j = k /\ y = x) \/ (j <> k /\ nth_error l j = Some y).
  Proof.
    intros H. destruct (Nat.eq_dec j k) as [->|N]; [left|right].
    - split; auto. apply some_lt in H as Lt. rewrite upd_length in Lt. rewrite nth_error_upd_eq in H by auto. congruence.
    - split; auto. rewrite nth_error_upd_ne in H; auto.
  Qed.

  Lemma tab_remove st G D len k I g : tab st G D len -> nth_error (s_left st) k = Some (Some I) -> nth_error G k = Some (Some g) ->
    tab (without st I) (upd G k None) D len /\ forall f, (gsum f G = f g + gsum f (upd G k None))%Z.
  Proof.
    intros [(L1 & L2 & L3) B C E] H HG. destruct (B k I H) as (g' & H1 & H2 & H3 & H4).
    split; [|intros f; rewrite (gsum_upd f None HG); cbn; lia].
    unfold without. rewrite H3. split; cbn [s_left s_right].
    - rewrite !upd_length; auto.
    - intros k' I' K. apply upd_cases in K as [[_ K]|[N K]]; [discriminate|].
      destruct (B k' I' K) as (g2 & K1 & K2 & K3 & K4). exists g2. split; [rewrite nth_error_upd_ne; auto|]. split; auto. split; auto.
      rewrite nth_error_upd_ne; auto. intros Q. rewrite <- Q in K4. congruence.
    - intros k' K. apply upd_cases in K as [[-> _]|[N K]].
      + rewrite nth_error_upd_eq; auto. apply some_lt in HG. auto.
      + rewrite nth_error_upd_ne; auto.
    - intros j k' K. apply upd_cases in K as [[_ K]|[N K]]; [discriminate|].
      destruct (E j k' K) as (I' & K1 & K2). exists I'. split; auto. rewrite nth_error_upd_ne; auto. intros Q. subst k'. rewrite H in K1. injection K1 as ->. congruence.
  Qed.
  Lemma tab_insert st G D len I g : tab st G D len -> nth_error (s_left st) (snd (i_left I)) = Some None ->
    nth_error (s_right st) (snd (i_right I)) = Some None -> IV len D I g ->
    tab (plus_ st I) (upd G (snd (i_left I)) (Some g)) D len /\
    forall f, (gsum f (upd G (snd (i_left I)) (Some g)) = f g + gsum f G)%Z.
  Proof.
    intros [(L1 & L2 & L3) B C E] H1 H2 V. assert (HG := C _ H1).
    split; [|intros f; rewrite (gsum_upd f (Some g) HG); cbn; lia].
    apply some_lt in H1 as Lt1. apply some_lt in H2 as Lt2. apply some_lt in HG as Lt3.
    unfold plus_. split; cbn [s_left s_right].
    - rewrite !upd_length; auto.
    - intros k' I' K. apply upd_cases in K as [[-> K]|[N K]].
      + injection K as <-. exists g. rewrite !nth_error_upd_eq by auto. auto.
      + destruct (B k' I' K) as (g2 & K1 & K2 & K3 & K4). exists g2. split; [rewrite nth_error_upd_ne; auto|]. split; auto. split; auto.
        rewrite nth_error_upd_ne; auto. intros Q. rewrite <- Q in K4. congruence.
    - intros k' K. apply upd_cases in K as [[_ K]|[N K]]; [discriminate|]. rewrite nth_error_upd_ne; auto.
    - intros j k' K. apply upd_cases in K as [[-> K]|[N K]].
      + injection K as ->. exists I. rewrite nth_error_upd_eq by auto. auto.
      + destruct (E j k' K) as (I' & K1 & K2). exists I'. split; auto. rewrite nth_error_upd_ne; auto. intros Q. subst k'. congruence.
  Qed.
  Lemma plus_without st G D len k I : tab st G D len -> nth_error (s_left st) k = Some (Some I) -> plus_ (without st I) I = st.
  Proof.
    intros T H. destruct (t_iv T H) as (g & _ & _ & E & R). destruct st as [l r]. unfold plus_, without. cbn [s_left s_right] in *.
    subst k. f_equal; apply nth_error_ext; intros j.
    - destruct (Nat.eq_dec j (snd (i_left I))) as [->|N]; [|rewrite !nth_error_upd_ne; auto].
      apply some_lt in H as Lt. rewrite nth_error_upd_eq; auto. rewrite upd_length; auto.
    - destruct (Nat.eq_dec j (snd (i_right I))) as [->|N]; [|rewrite !nth_error_upd_ne; auto].
      apply some_lt in R as Lt. rewrite nth_error_upd_eq; auto. rewrite upd_length; auto.
  Qed.

  Variable dbg : bool.
  Notation s_ins := (s_insert dbg).
  Lemma insert_eq (st st' : status M) I : s_ins st I = Ok st' -> st' = plus_ st I /\ snd (i_left I) < length (s_left st) /\ snd (i_right I) < length (s_right st).
  Proof.
    unfold s_insert, set_at. intros H. inv_ok H. inv_ok H. inv_ok H1. injection H1 as <-. inv_ok H. inv_ok H1. injection H1 as <-. injection H as <-.
    apply Nat.ltb_lt in H2, H3. auto.
  Qed.

  Lemma remove_left_eq st G D len k r : tab st G D len -> s_remove_left st k = Ok r ->
    (r = None /\ (nth_error (s_left st) k = Some None \/ nth_error (s_left st) k = None)) \/
    exists I, r = Some (I, without st I) /\ nth_error (s_left st) k = Some (Some I) /\ snd (i_left I) = k.
  Proof.
    intros T H. unfold s_remove_left in H. destruct (nth_error (s_left st) k) as [[I|]|] eqn:E.
    - right. inv_ok H. injection H as <-. unfold set_at in H0. inv_ok H0. injection H0 as <-.
      destruct (t_iv T E) as (g & _ & _ & Q & _). exists I. unfold without. rewrite Q. auto.
    - injection H as <-. auto.
    - injection H as <-. auto.
  Qed.
  Lemma remove_right_eq st G D len k r : tab st G D len -> s_remove_right st k = Ok r ->
    (r = (None, st) /\ nth_error (s_right st) k = Some None) \/
    exists I, r = (Some I, without st I) /\ nth_error (s_left st) (snd (i_left I)) = Some (Some I) /\ snd (i_right I) = k.
  Proof.
    intros T H. unfold s_remove_right, at_ in H. inv_ok H. inv_ok H0. destruct a as [j|].
    - right. destruct (t_right T H0) as (I & E & Q). rewrite E in H. injection H as <-.
      destruct (t_iv T E) as (g & _ & _ & Q' & _). exists I. unfold without. rewrite Q, Q'. auto.
    - injection H as <-. auto.
  Qed.

  (** ** Consumed polygon edges *)
  Definition occ {A} (o : option (option A)) : nat := match o with Some (Some _) => 1 | _ => 0 end.
  Definition lv (st : status M) (i : nat) : nat := occ (nth_error (s_left st) (nxt i)).
  Definition rv (st : status M) (i : nat) : nat := occ (nth_error (s_right st) i).
  Definition dl (D : list nat) (x : nat) : nat := if in_dec Nat.eq_dec x D then 1 else 0.
  Definition cn (C : list nat) (i : nat) : nat := count_occ Nat.eq_dec C i.
  Definition cE (C : list nat) u w : Z := fold_right (fun i z => nt i (nxt i) u w + z)%Z 0%Z C.

  Lemma lv_without st I i : lv (without st I) i = if nxt i =? snd (i_left I) then 0 else lv st i.
  Proof.
    unfold lv, without. cbn [s_left]. rewrite nth_error_upd. rewrite (Nat.eqb_sym (nxt i)).
    destruct (Nat.eqb_spec (snd (i_left I)) (nxt i)) as [E|E]; cbn [andb]; auto.
    destruct (Nat.ltb_spec (snd (i_left I)) (length (s_left st))) as [H|H]; auto.
    rewrite (proj2 (nth_error_None _ _)) by lia. reflexivity.
  Qed.
  Lemma rv_without st I i : rv (without st I) i = if i =? snd (i_right I) then 0 else rv st i.
  Proof.
    unfold rv, without. cbn [s_right]. rewrite nth_error_upd. rewrite (Nat.eqb_sym i).
    destruct (Nat.eqb_spec (snd (i_right I)) i) as [E|E]; cbn [andb]; auto.
    destruct (Nat.ltb_spec (snd (i_right I)) (length (s_right st))) as [H|H]; auto.
    rewrite (proj2 (nth_error_None _ _)) by lia. reflexivity.
  Qed.
  Lemma lv_plus st I i : snd (i_left I) < length (s_left st) -> lv (plus_ st I) i = if nxt i =? snd (i_left I) then 1 else lv st i.
  Proof.
    intros H. unfold lv, plus_. cbn [s_left]. rewrite nth_error_upd. rewrite (Nat.eqb_sym (nxt i)).
    destruct (Nat.eqb_spec (snd (i_left I)) (nxt i)) as [E|E]; cbn [andb]; auto.
    destruct (Nat.ltb_spec (snd (i_left I)) (length (s_left st))) as [H'|H']; auto. lia.
  Qed.
  Lemma rv_plus st I i : snd (i_right I) < length (s_right st) -> rv (plus_ st I) i = if i =? snd (i_right I) then 1 else rv st i.
  Proof.
    intros H. unfold rv, plus_. cbn [s_right]. rewrite nth_error_upd. rewrite (Nat.eqb_sym i).
    destruct (Nat.eqb_spec (snd (i_right I)) i) as [E|E]; cbn [andb]; auto.
    destruct (Nat.ltb_spec (snd (i_right I)) (length (s_right st))) as [H'|H']; auto. lia.
  Qed.
  Lemma cn_snoc C x i : cn (x :: C) i = cn C i + (if i =? x then 1 else 0).
  Proof. unfold cn. cbn. destruct (Nat.eq_dec x i) as [->|N]; [rewrite Nat.eqb_refl; lia|]. destruct (Nat.eqb_spec i x); [congruence|lia]. Qed.
  Lemma dl_cons D a x : ~ In a D -> dl (a :: D) x = dl D x + (if x =? a then 1 else 0).
  Proof.
    intros H. unfold dl. destruct (Nat.eqb_spec x a) as [->|N].
    - destruct (in_dec Nat.eq_dec a (a :: D)) as [_|Q]; [|exfalso; apply Q; left; auto].
      destruct (in_dec Nat.eq_dec a D); [tauto|]. lia.
    - destruct (in_dec Nat.eq_dec x (a :: D)) as [[Q|Q]|Q]; [congruence| |];
        (destruct (in_dec Nat.eq_dec x D) as [Q'|Q']; [|]); try tauto; try lia. exfalso. apply Q. right. auto.
  Qed.

  Definition edges (st : status M) (D C : list nat) : Prop :=
    forall i, i < n -> lv st i + rv st i + 2 * cn C i = dl D i + dl D (nxt i).
  Lemma nxt_eqb i a : i < n -> a < n -> (nxt i =? nxt a) = (i =? a).
  Proof.
    intros A B. destruct (Nat.eqb_spec i a) as [->|N]; [apply Nat.eqb_refl|]. apply Nat.eqb_neq. intros E. apply N. eapply next_inj; eauto.
  Qed.
  Lemma nxt_eqb' i a : i < n -> a < n -> (nxt i =? a) = (i =? prv a).
  Proof. intros A B. rewrite <- (@next_prev n n3 a) at 1 by auto. apply nxt_eqb; auto. apply prev_lt; auto. Qed.
  Lemma edges_step st st' D C C' a : edges st D C -> ~ In a D -> a < n ->
    (forall i, i < n -> lv st' i + rv st' i + 2 * cn C' i =
       lv st i + rv st i + 2 * cn C i + (if i =? a then 1 else 0) + (if i =? prv a then 1 else 0)) -> edges st' (a :: D) C'.
  Proof.
    intros E N A H i Hi. rewrite H, E, !dl_cons by auto. rewrite nxt_eqb' by auto. lia.
  Qed.

  (** facts about a vertex that has not been processed *)
  Lemma fresh_left st G D len a : tab st G D len -> Forall (fun x => x < n) D -> ~ In a D -> a < n -> nth_error (s_left st) (nxt a) = Some None.
  Proof.
    intros T F N A. destruct (nth_error (s_left st) (nxt a)) as [[I|]|] eqn:E; auto.
    - exfalso. destruct (t_iv T E) as (g & _ & V & Q & _). destruct V as (V1 & V2 & _). apply N.
      rewrite V2 in Q. rewrite Forall_forall in F. apply next_inj in Q; auto. congruence.
    - exfalso. apply nth_error_None in E. destruct (t_len T) as (L1 & _). pose proof (@next_lt n n3 a). lia.
  Qed.
  Lemma fresh_right st G D len a : tab st G D len -> Forall (fun x => x < n) D -> ~ In a D -> a < n -> nth_error (s_right st) (prv a) = Some None.
  Proof.
    intros T F N A. destruct (nth_error (s_right st) (prv a)) as [[k|]|] eqn:E; auto.
    - exfalso. destruct (t_right T E) as (I & E2 & Q). destruct (t_iv T E2) as (g & _ & V & _ & _).
      destruct V as (_ & _ & V1 & V2 & _). apply N. rewrite Forall_forall in F. rewrite V2 in Q.
      rewrite <- (@next_prev n n3 a) by auto. rewrite <- Q, next_prev by auto. auto.
    - exfalso. apply nth_error_None in E. destruct (t_len T) as (_ & L1 & _). pose proof (@prev_lt n n3 a). lia.
  Qed.
  Lemma none_without_l st I k : nth_error (s_left st) k = Some None -> nth_error (s_left (without st I)) k = Some None.
  Proof. intros H. unfold without. cbn. rewrite nth_error_upd. destruct (_ && _); auto. Qed.
  Lemma none_without_r st I k : nth_error (s_right st) k = Some None -> nth_error (s_right (without st I)) k = Some None.
  Proof. intros H. unfold without. cbn. rewrite nth_error_upd. destruct (_ && _); auto. Qed.
  Lemma without_l st I k x : nth_error (s_left st) k = Some x -> snd (i_left I) = k -> nth_error (s_left (without st I)) k = Some None.
  Proof. intros H <-. unfold without. cbn. apply nth_error_upd_eq. apply some_lt in H. auto. Qed.
  Lemma without_r st I k x : nth_error (s_right st) k = Some x -> snd (i_right I) = k -> nth_error (s_right (without st I)) k = Some None.
  Proof. intros H <-. unfold without. cbn. apply nth_error_upd_eq. apply some_lt in H. auto. Qed.
  Lemma none_plus_l st I k : nth_error (s_left st) k = Some None -> snd (i_left I) <> k -> nth_error (s_left (plus_ st I)) k = Some None.
  Proof. intros H N. unfold plus_. cbn. rewrite nth_error_upd_ne; auto. Qed.
  Lemma none_plus_r st I k : nth_error (s_right st) k = Some None -> snd (i_right I) <> k -> nth_error (s_right (plus_ st I)) k = Some None.
  Proof. intros H N. unfold plus_. cbn. rewrite nth_error_upd_ne; auto. Qed.

  (** ** The invariant *)
  Definition FI (c : ctx M) (D : list nat) (K : Z) : Prop :=
    exists T G C, snd c = buf T /\ gd T /\ tab (fst c) G D (length T) /\ Forall (fun x => x < n) D /\ Forall (fun x => x < n) C /\
      edges (fst c) D C /\ (forall u w, tnet T u w + gsum (giE u w) G = cE C u w)%Z /\ (zlen T + gsum gik G = K)%Z.

  Lemma not_right s c len l x : iv s c len -> g_ops c = l ++ [(true, x)] -> m_is_right s = false.
  Proof.
    intros I E. destruct (m_is_right s) eqn:R; auto. exfalso. destruct (law_right I R) as [Q|(l' & y & Q)].
    - rewrite Q in E. destruct l; discriminate.
    - rewrite Q in E. apply app_inj_tail in E as [_ E]. discriminate.
  Qed.
  Lemma close_right T s c a s' ix1 ix2 : gd T -> iv s c (length T) -> m_right s a (buf T) = Ok (s', ix1) -> @m_finish M s' ix1 = Ok ix2 ->
    exists T', ix2 = buf T' /\ gd T' /\ length T <= length T' /\
      (forall u w, tnet T' u w = tnet T u w + wE c u w + nt a (lastR c) u w + nt (lastL c) a u w)%Z /\ (zlen T' = zlen T + wk c + 1)%Z.
  Proof.
    intros G I H1 H2. destruct (@op_ok T s c false a s' ix1 G I H1) as (T1 & c1 & -> & G1 & I1 & Le & LL & LR & Ops & EE & EK).
    assert (N : g_ops c1 <> []) by (rewrite Ops; destruct (g_ops c); discriminate).
    destruct (fin_ok G1 I1 N H2) as (T2 & -> & G2 & Le2 & EE2 & EK2). exists T2. split; auto. split; auto. split; [lia|]. split; [|lia].
    intros u w. rewrite EE2, LL, LR. specialize (EE u w). cbn in EE. lia.
  Qed.
  Lemma close_left T s c a s' ix1 ix2 : gd T -> iv s c (length T) -> m_left s a (buf T) = Ok (s', ix1) -> @m_finish M s' ix1 = Ok ix2 ->
    exists T', ix2 = buf T' /\ gd T' /\ length T <= length T' /\
      (forall u w, tnet T' u w = tnet T u w + wE c u w + nt (lastL c) a u w + nt a (lastR c) u w)%Z /\ (zlen T' = zlen T + wk c + 1)%Z.
  Proof.
    intros G I H1 H2. destruct (@op_ok T s c true a s' ix1 G I H1) as (T1 & c1 & -> & G1 & I1 & Le & LL & LR & Ops & EE & EK).
    assert (N : g_ops c1 <> []) by (rewrite Ops; destruct (g_ops c); discriminate).
    destruct (fin_ok G1 I1 N H2) as (T2 & -> & G2 & Le2 & EE2 & EK2). exists T2. split; auto. split; auto. split; [lia|]. split; [|lia].
    intros u w. rewrite EE2, LL, LR. specialize (EE u w). cbn in EE. lia.
  Qed.
  Lemma cE_cons C x u w : (cE (x :: C) u w = nt x (nxt x) u w + cE C u w)%Z. Proof. reflexivity. Qed.
  Lemma incl_cons_r (a : nat) D : incl D (a :: D). Proof. intros x. right. auto. Qed.

  Section Event.
    Variables (D : list nat) (a : nat).
    Hypothesis aD : ~ In a D.
    Hypothesis an : a < n.
    Variable e : event.
    Hypothesis e_here : v_here e = a.
    Hypothesis e_prev : v_prev e = prv a.
    Hypothesis e_next : v_next e = nxt a.

    Lemma start_step c c' K : FI c D K -> sw_start dbg c e = Ok c' -> FI c' (a :: D) (K - 1).
    Proof.
      intros (T & G & C & EB & GD & TB & FD & FC & ED & LE & LK) H. destruct c as [st ix]. cbn [fst snd] in *. subst ix.
      unfold sw_start in H. cbn [fst snd] in H. inv_ok H. injection H as <-. rewrite e_here, e_prev, e_next in H0.
      destruct (insert_eq H0) as (-> & B1 & B2). cbn in B1, B2.
      destruct (new_ok a (length T)) as (I0 & LL & LR & WE & WK).
      assert (F1 := fresh_left TB FD aD an). assert (F2 := fresh_right TB FD aD an).
      assert (TB' := tab_grow TB (le_n _) (@incl_cons_r a D)).
      destruct (@tab_insert st G (a :: D) (length T) (mkI a (a, nxt a) (a, prv a) (m_new M a) None) (fresh a, None) TB' F1 F2) as (TB2 & S2).
      { repeat split; cbn; auto. }
      eexists T, _, C. cbn [fst snd]. split; [reflexivity|]. split; [auto|]. split; [exact TB2|]. split; [constructor; auto|]. split; auto. split; [|split].
      - apply edges_step with (st := st) (C := C); auto. intros i Hi. rewrite lv_plus, rv_plus by auto. cbn [i_left i_right snd].
        rewrite nxt_eqb by auto.
        assert (Z1 : i = a -> lv st i = 0) by (intros ->; unfold lv; rewrite F1; auto).
        assert (Z2 : i = prv a -> rv st i = 0) by (intros ->; unfold rv; rewrite F2; auto).
        destruct (Nat.eqb_spec i a), (Nat.eqb_spec i (prv a)); lia.
      - intros u w. rewrite S2. unfold giE at 1. cbn [fst snd]. rewrite WE, <- LE. lia.
      - rewrite S2. unfold gik at 1. cbn [fst snd]. rewrite WK. lia.
    Qed.

    (** the interval that a polygon edge ends *)
    Lemma left_prev len I g : IV len D I g -> Forall (fun x => x < n) D -> snd (i_left I) = a -> fst (i_left I) = prv a.
    Proof.
      intros (A & B & _) F E. rewrite Forall_forall in F. rewrite <- E, B, prev_next by auto. auto.
    Qed.
    Lemma right_next len I g : IV len D I g -> Forall (fun x => x < n) D -> snd (i_right I) = a -> fst (i_right I) = nxt a.
    Proof.
      intros (_ & _ & A & B & _) F E. rewrite Forall_forall in F. rewrite <- E, B, next_prev by auto. auto.
    Qed.

    Lemma end_step c c' K : FI c D K -> sw_end c e = Ok c' -> FI c' (a :: D) (K + 1) /\
      exists I, nth_error (s_left (fst c)) a = Some (Some I) /\ is_end I = true.
    Proof.
      intros (T & G & C & EB & GD & TB & FD & FC & ED & LE & LK) H. destruct c as [st ix]. cbn [fst snd] in *. subst ix.
      unfold sw_end in H. cbn [fst snd] in H. rewrite e_here in H. inv_ok H. inv_ok H. inv_ok H1. subst a0.
      destruct (remove_left_eq TB H0) as [[Q _]|(I & Q & EI & EK)]; [discriminate|]. injection Q as ->. cbn [fst snd] in H.
      inv_ok H. unfold is_end in H1. apply Nat.eqb_eq in H1. rewrite EK in H1. inv_ok H. inv_ok H. destruct a1 as [s2 ix2]. inv_ok H. injection H as <-.
      destruct (t_iv TB EI) as (g & EG & V & _ & ER). destruct (tab_remove TB EI EG) as (TB' & S').
      assert (PL := left_prev V FD EK). assert (NR := right_next V FD (eq_sym H1)).
      destruct V as (V1 & V2 & V3 & V4 & V5 & V6 & V7). destruct g as [c1 f]. cbn [fst snd] in *.
      assert (exists T', gd T' /\ length T <= length T' /\ buf T' = a1 /\
        (forall u w, tnet T' u w = tnet T u w + giE u w (c1, f) + nt (prv a) a u w + nt a (nxt a) u w)%Z /\
        zlen T' = (zlen T + gik (c1, f) + 1)%Z) as (T' & GD' & Le & EB & LE' & LK').
      { unfold giE, gik. cbn [fst snd]. destruct (i_fixup I) as [fx|]; destruct f as [f|]; try tauto.
        - inv_ok H2. destruct a2 as [s1 ix1]. cbn [fst snd] in *. destruct V7 as (W1 & W2 & W3 & W4).
          destruct (close_right GD W1 H H2) as (T1 & -> & GD1 & Le1 & E1 & K1).
          destruct (close_left GD1 (law_grow V5 Le1) H3 H4) as (T2 & -> & GD2 & Le2 & E2 & K2).
          exists T2. split; auto. split; [lia|]. split; auto. split; [|lia].
          intros u w. rewrite E2, E1, V6, PL, W2, W3, NR. rewrite (nt_rev (lastL f) a). lia.
        - injection H2 as <-. destruct V7 as (W1 & W2).
          destruct (close_left GD V5 H3 H4) as (T2 & -> & GD2 & Le2 & E2 & K2). exists T2. split; auto. split; [lia|]. split; auto. split; [|lia].
          intros u w. rewrite E2, V6, PL, W1, NR. lia. }
      split; [|exists I; split; auto; unfold is_end; rewrite EK, <- H1; apply Nat.eqb_refl].
      eexists T', _, (a :: prv a :: C). cbn [fst snd]. split; [auto|]. split; [auto|].
      split; [exact (tab_grow TB' Le (@incl_cons_r a D))|]. split; [constructor; auto|].
      split; [constructor; auto; constructor; auto; apply prev_lt; auto|]. split; [|split].
      - apply edges_step with (st := st) (C := C); auto. intros i Hi. rewrite lv_without, rv_without, !cn_snoc. rewrite EK, <- H1, nxt_eqb' by auto.
        assert (Z1 : i = prv a -> lv st i = 1) by (intros ->; unfold lv; rewrite next_prev, EI by auto; auto).
        assert (Z2 : i = a -> rv st i = 1) by (intros ->; unfold rv; rewrite H1, ER; auto).
        destruct (Nat.eqb_spec i a), (Nat.eqb_spec i (prv a)); lia.
      - intros u w. rewrite !cE_cons, next_prev by auto. rewrite LE'. specialize (S' (giE u w)). specialize (LE u w). lia.
      - specialize (S' gik). lia.
    Qed.

    Lemma regular_left_step st T K I c' : FI (st, buf T) D K -> nth_error (s_left st) a = Some (Some I) ->
      sw_regular_left dbg (without st I, buf T) e I = Ok c' -> FI c' (a :: D) (K + 1).
    Proof.
      intros (T0 & G & C & EB & GD & TB & FD & FC & ED & LE & LK) EI H. cbn [fst snd] in *. rewrite EB in H. clear T EB. rename T0 into T.
      destruct (t_iv TB EI) as (g & EG & V & EK & ER). destruct (tab_remove TB EI EG) as (TB' & S').
      assert (PL := left_prev V FD EK).
      destruct V as (V1 & V2 & V3 & V4 & V5 & V6 & V7). destruct g as [c1 f]. cbn [fst snd] in *.
      unfold sw_regular_left in H. cbn [fst snd] in H. rewrite e_here, e_next in H. inv_ok H. inv_ok H. inv_ok H. injection H as <-.
      destruct (insert_eq H2) as (-> & B1 & B2). destruct a1 as [s3 ix3]. cbn [fst snd i_left i_right] in *.
      assert (exists T' c2, gd T' /\ length T <= length T' /\ buf T' = ix3 /\ iv s3 c2 (length T') /\ lastL c2 = a /\ lastR c2 = fst (i_right I) /\
        m_is_right s3 = false /\
        (forall u w, tnet T' u w + wE c2 u w = tnet T u w + giE u w (c1, f) + nt (prv a) a u w)%Z /\
        (zlen T' + wk c2 = zlen T + gik (c1, f) + 1)%Z) as (T' & c2 & GD' & Le & EB & I2 & LL & LR & NR & LE' & LK').
      { unfold giE, gik. cbn [fst snd]. destruct (i_fixup I) as [fx|]; destruct f as [f|]; try tauto.
        - inv_ok H0. inv_ok H0. injection H0 as <-. destruct a1 as [s1 ix1]. cbn [fst snd] in *. destruct V7 as (W1 & W2 & W3 & W4).
          destruct (close_left GD V5 H H3) as (T1 & -> & GD1 & Le1 & E1 & K1).
          destruct (@op_ok T1 fx f true a s3 ix3 GD1 (law_grow W1 Le1) H1) as (T2 & c2 & -> & GD2 & I2 & Le2 & LL & LR & OP & E2 & K2).
          exists T2, c2. split; auto. split; [lia|]. split; auto. split; auto. split; auto. split; [congruence|].
          split; [eapply not_right; eauto|]. split; [|lia].
          intros u w. rewrite E2, E1, V6, PL, W2. rewrite (nt_rev (lastL f) a). lia.
        - injection H0 as <-. destruct V7 as (W1 & W2). cbn [fst snd] in *.
          destruct (@op_ok T _ c1 true a s3 ix3 GD V5 H1) as (T2 & c2 & -> & GD2 & I2 & Le2 & LL & LR & OP & E2 & K2).
          exists T2, c2. split; auto. split; [lia|]. split; auto. split; auto. split; auto. split; [congruence|].
          split; [eapply not_right; eauto|]. split; [|lia].
          intros u w. rewrite E2, V6, PL. lia. }
      assert (TB2 := tab_grow TB' Le (@incl_cons_r a D)).
      assert (F1 := fresh_left TB' FD aD an). assert (F2 := without_r ER eq_refl).
      destruct (@tab_insert _ _ (a :: D) (length T') (mkI a (a, nxt a) (i_right I) s3 None) (c2, None) TB2 F1 F2) as (TB3 & S3).
      { repeat split; cbn; auto. rewrite NR; discriminate. }
      eexists T', _, (prv a :: C). cbn [fst snd]. split; [auto|]. split; [auto|].
      split; [exact TB3|]. split; [constructor; auto|].
      split; [constructor; auto; apply prev_lt; auto|]. split; [|split].
      - apply edges_step with (st := st) (C := C); auto. intros i Hi. rewrite lv_plus, rv_plus, lv_without, rv_without, !cn_snoc by auto.
        cbn [i_left i_right snd]. rewrite EK, nxt_eqb, nxt_eqb' by auto.
        assert (Z1 : i = prv a -> lv st i = 1) by (intros ->; unfold lv; rewrite next_prev, EI by auto; auto).
        assert (Z2 : i = snd (i_right I) -> rv st i = 1) by (intros ->; unfold rv; rewrite ER; auto).
        assert (Z3 : i = a -> lv st i = 0) by (intros ->; unfold lv; rewrite (fresh_left TB FD aD an); auto).
        pose proof (prev_ne n3 an).
        destruct (Nat.eqb_spec i a), (Nat.eqb_spec i (prv a)), (Nat.eqb_spec i (snd (i_right I))); try lia.
      - intros u w. rewrite !cE_cons, next_prev by auto. specialize (LE' u w). rewrite S3. unfold giE at 1. cbn [fst snd].
        specialize (S' (giE u w)). specialize (LE u w). lia.
      - rewrite S3. unfold gik at 1. cbn [fst snd]. specialize (S' gik). lia.
    Qed.

    Lemma regular_right_step st T K I c' : FI (st, buf T) D K -> nth_error (s_left st) (snd (i_left I)) = Some (Some I) -> snd (i_right I) = a ->
      sw_regular_right dbg (without st I, buf T) e I = Ok c' -> FI c' (a :: D) (K + 1).
    Proof.
      intros (T0 & G & C & EB & GD & TB & FD & FC & ED & LE & LK) EI EA H. cbn [fst snd] in *. rewrite EB in H. clear T EB. rename T0 into T.
      destruct (t_iv TB EI) as (g & EG & V & _ & ER). destruct (tab_remove TB EI EG) as (TB' & S').
      assert (PL := right_next V FD EA).
      destruct V as (V1 & V2 & V3 & V4 & V5 & V6 & V7). destruct g as [c1 f]. cbn [fst snd] in *.
      unfold sw_regular_right in H. cbn [fst snd] in H. rewrite e_here, e_prev in H. inv_ok H. inv_ok H. inv_ok H. injection H as <-.
      destruct (insert_eq H2) as (-> & B1 & B2). destruct a1 as [s3 ix3]. cbn [fst snd i_left i_right] in *.
      assert (exists T' c2, gd T' /\ length T <= length T' /\ buf T' = ix3 /\ iv s3 c2 (length T') /\ lastR c2 = a /\ lastL c2 = fst (i_left I) /\
        (forall u w, tnet T' u w + wE c2 u w = tnet T u w + giE u w (c1, f) + nt a (nxt a) u w)%Z /\
        (zlen T' + wk c2 = zlen T + gik (c1, f) + 1)%Z) as (T' & c2 & GD' & Le & EB & I2 & LL & LR & LE' & LK').
      { unfold giE, gik. cbn [fst snd]. destruct (i_fixup I) as [fx|]; destruct f as [f|]; try tauto.
        - inv_ok H0. destruct a1 as [s1 ix1]. cbn [fst snd] in *. destruct V7 as (W1 & W2 & W3 & W4).
          destruct (close_right GD W1 H H0) as (T1 & -> & GD1 & Le1 & E1 & K1).
          destruct (@op_ok T1 _ c1 false a s3 ix3 GD1 (law_grow V5 Le1) H1) as (T2 & c2 & -> & GD2 & I2 & Le2 & LL & LR & OP & E2 & K2).
          exists T2, c2. split; auto. split; [lia|]. split; auto. split; auto. split; auto. split; [congruence|]. split; [|lia].
          intros u w. rewrite E2, E1, W3, PL, W2. rewrite (nt_rev (lastL f) a). lia.
        - injection H0 as <-. destruct V7 as (W1 & W2). cbn [fst snd] in *.
          destruct (@op_ok T _ c1 false a s3 ix3 GD V5 H1) as (T2 & c2 & -> & GD2 & I2 & Le2 & LL & LR & OP & E2 & K2).
          exists T2, c2. split; auto. split; [lia|]. split; auto. split; auto. split; auto. split; [congruence|]. split; [|lia].
          intros u w. rewrite E2, W1, PL. lia. }
      assert (TB2 := tab_grow TB' Le (@incl_cons_r a D)).
      assert (F1 := without_l EI eq_refl). assert (F2 := fresh_right TB' FD aD an).
      destruct (@tab_insert _ _ (a :: D) (length T') (mkI a (i_left I) (a, prv a) s3 None) (c2, None) TB2 F1 F2) as (TB3 & S3).
      { repeat split; cbn; auto. }
      eexists T', _, (a :: C). cbn [fst snd]. split; [auto|]. split; [auto|].
      split; [exact TB3|]. split; [constructor; auto|]. split; [constructor; auto|]. split; [|split].
      - assert (In (fst (i_left I)) D) as InD by auto. rewrite Forall_forall in FD. 
        apply edges_step with (st := st) (C := C); auto. intros i Hi. rewrite lv_plus, rv_plus, lv_without, rv_without, !cn_snoc by auto.
        cbn [i_left i_right snd]. rewrite EA, V2, nxt_eqb by auto.
        assert (Z1 : i = a -> rv st i = 1) by (intros ->; unfold rv; rewrite EA in ER; rewrite ER; auto).
        assert (Z2 : i = fst (i_left I) -> lv st i = 1) by (intros ->; unfold lv; rewrite <- V2, EI; auto).
        assert (Z3 : i = prv a -> rv st i = 0) by (intros ->; unfold rv; rewrite (fresh_right TB (proj2 (Forall_forall _ _) FD) aD an); auto).
        pose proof (prev_ne n3 an).
        destruct (Nat.eqb_spec i a), (Nat.eqb_spec i (prv a)), (Nat.eqb_spec i (fst (i_left I))); try lia.
      - intros u w. rewrite !cE_cons. specialize (LE' u w). rewrite S3. unfold giE at 1. cbn [fst snd].
        specialize (S' (giE u w)). specialize (LE u w). lia.
      - rewrite S3. unfold gik at 1. cbn [fst snd]. specialize (S' gik). lia.
    Qed.

    Lemma merge_step c c' K : FI c D K -> sw_merge dbg c e = Ok c' -> FI c' (a :: D) (K + 3).
    Proof.
      intros (T & G & C & EB & GD & TB & FD & FC & ED & LE & LK) H. destruct c as [st ix]. cbn [fst snd] in *. subst ix.
      unfold sw_merge in H. cbn [fst snd] in H. rewrite e_here in H. inv_ok H. inv_ok H. inv_ok H1.
      destruct (remove_right_eq TB H0) as [[-> _]|(I1 & -> & EI1 & EA1)]; [discriminate|]. cbn [fst snd] in *. injection H1 as <-. clear H0.
      destruct (t_iv TB EI1) as (g1 & EG1 & IV1 & _ & ER1). destruct (tab_remove TB EI1 EG1) as (TB1 & S1).
      inv_ok H. inv_ok H. inv_ok H1. subst a0.
      destruct (remove_left_eq TB1 H0) as [[Q _]|(I2 & Q & EI2 & EA2)]; [discriminate|]. injection Q as ->. cbn [fst snd] in *. clear H0.
      destruct (t_iv TB1 EI2) as (g2 & EG2 & IV2 & _ & ER2). destruct (tab_remove TB1 EI2 EG2) as (TB2 & S2).
      assert (N1 := right_next IV1 FD EA1). assert (P2 := left_prev IV2 FD EA2).
      destruct IV1 as (V1 & V2 & V3 & V4 & V5 & V6 & V7). destruct g1 as [c1 f1]. cbn [fst snd] in *.
      destruct IV2 as (U1 & U2 & U3 & U4 & U5 & U6 & U7). destruct g2 as [c2 f2]. cbn [fst snd] in *.
      inv_ok H. inv_ok H. inv_ok H. inv_ok H. inv_ok H. inv_ok H. inv_ok H. injection H as <-.
      destruct a1 as [fx0 ix1], a2 as [s2 ix2], a3 as [s3 ix3]. cbn [fst snd] in *.
      destruct (insert_eq H6) as (-> & B1 & B2). cbn [fst snd i_left i_right] in *.
      assert (exists T' c' f', gd T' /\ length T <= length T' /\ buf T' = ix3 /\ iv s2 c' (length T') /\ iv s3 f' (length T') /\
         lastR c' = a /\ lastL c' = fst (i_left I1) /\ lastL f' = a /\ lastR f' = fst (i_right I2) /\ m_is_right s3 = false /\
        (forall u w, tnet T' u w + wE c' u w + wE f' u w = tnet T u w + giE u w (c1, f1) + giE u w (c2, f2) + nt a (nxt a) u w + nt (prv a) a u w)%Z /\
        (zlen T' + wk c' + wk f' = zlen T + gik (c1, f1) + gik (c2, f2) + 2)%Z)
        as (T' & c' & f' & GD' & Le & EB & Ic' & If' & R1 & R2 & R3 & R4 & R5 & LE' & LK').
      { assert (exists T1, gd T1 /\ length T <= length T1 /\ a0 = buf T1 /\
          (forall u w, tnet T1 u w + wE c1 u w + nt a (lastR c1) u w = tnet T u w + giE u w (c1, f1) + nt a (nxt a) u w)%Z /\
          (zlen T1 + wk c1 = zlen T + gik (c1, f1))%Z) as (T1 & GD1 & Le1 & -> & E1 & K1).
        { unfold giE, gik. cbn [fst snd]. destruct (i_fixup I1) as [fx|]; destruct f1 as [f|]; try tauto.
          - inv_ok H2. destruct a1 as [s1 ix1']. cbn [fst snd] in *. destruct V7 as (W1 & W2 & W3 & W4).
            destruct (close_right GD W1 H H2) as (T1 & -> & GD1 & Le1 & E1 & K1). exists T1. split; auto. split; auto. split; auto. split; [|lia].
            intros u w. rewrite E1, W3, N1, W2. rewrite (nt_rev (lastL f) a). lia.
          - injection H2 as <-. destruct V7 as (W1 & W2). exists T. split; auto. split; auto. split; auto. split; [|lia].
            intros u w. rewrite W1, N1. lia. }
        assert (exists T2 f0, gd T2 /\ length T1 <= length T2 /\ ix1 = buf T2 /\ iv fx0 f0 (length T2) /\ lastR f0 = fst (i_right I2) /\
          (forall u w, tnet T2 u w + wE f0 u w + nt (lastL f0) a u w = tnet T1 u w + giE u w (c2, f2) + nt (prv a) a u w)%Z /\
          (zlen T2 + wk f0 = zlen T1 + gik (c2, f2))%Z) as (T2 & f0 & GD2 & Le2 & -> & I2' & LR & E2 & K2).
        { unfold giE, gik. cbn [fst snd]. destruct (i_fixup I2) as [fx|]; destruct f2 as [f|]; try tauto.
          - inv_ok H3. inv_ok H3. injection H3 as <- <-. destruct a0 as [s1 ix1']. cbn [fst snd] in *. destruct U7 as (W1 & W2 & W3 & W4).
            destruct (close_left GD1 (law_grow U5 Le1) H H7) as (T2 & -> & GD2 & Le2 & E2 & K2).
            exists T2, f. split; auto. split; auto. split; auto. split; [eapply law_grow; eauto; lia|]. split; auto. split; [|lia].
            intros u w. rewrite E2, U6, P2, W2. rewrite (nt_rev (lastL f) a). lia.
          - injection H3 as <- <-. destruct U7 as (W1 & W2). exists T1, c2. split; auto. split; auto. split; auto. split; [eapply law_grow; eauto|].
            split; auto. split; [|lia]. intros u w. rewrite U6, P2. lia. }
        destruct (@op_ok T2 _ c1 false a s2 ix2 GD2 (law_grow V5 (Nat.le_trans _ _ _ Le1 Le2)) H4) as (T3 & c3 & -> & GD3 & I3 & Le3 & LL3 & LR3 & OP3 & E3 & K3).
        destruct (@op_ok T3 _ f0 true a s3 ix3 GD3 (law_grow I2' Le3) H5) as (T4 & f4 & -> & GD4 & I4 & Le4 & LL4 & LR4 & OP4 & E4 & K4).
        exists T4, c3, f4. split; auto. split; [lia|]. split; auto. split; [eapply law_grow; eauto|]. split; auto. split; auto. split; [congruence|].
        split; auto. split; [congruence|]. split; [eapply not_right; eauto|]. split; [|lia].
        intros u w. specialize (E1 u w). specialize (E2 u w). specialize (E3 u w). specialize (E4 u w). cbn in E3, E4. lia. }
      assert (TB3 := tab_grow TB2 Le (@incl_cons_r a D)).
      assert (F1 : nth_error (s_left (without (without st I1) I2)) (snd (i_left I1)) = Some None) by (eapply none_without_l, without_l; eauto).
      assert (F2 := without_r ER2 eq_refl).
      destruct (@tab_insert _ _ (a :: D) (length T') (mkI a (i_left I1) (i_right I2) s2 (Some s3)) (c', Some f') TB3 F1 F2) as (TB4 & S4).
      { split; [cbn; auto|]. split; [cbn; auto|]. split; [cbn; auto|]. split; [cbn; auto|]. split; [cbn; auto|]. split; [cbn; auto|].
        cbn. split; auto. split; [congruence|]. auto. }
      eexists T', _, (a :: prv a :: C). cbn [fst snd]. split; [auto|]. split; [auto|].
      split; [exact TB4|]. split; [constructor; auto|]. split; [constructor; auto; constructor; auto; apply prev_lt; auto|]. split; [|split].
      - assert (In (fst (i_left I1)) D) as InD by auto. rewrite Forall_forall in FD.
        apply edges_step with (st := st) (C := C); auto. intros i Hi. rewrite lv_plus, rv_plus, !cn_snoc by auto.
        cbn [i_left i_right snd]. 
        assert (X1 := lv_without (without st I1) I2 i). assert (X2 := rv_without (without st I1) I2 i).
        assert (X3 := lv_without st I1 i). assert (X4 := rv_without st I1 i).
        assert (Z0 : i = prv a -> lv (without st I1) i = 1) by (intros ->; unfold lv; rewrite next_prev, EI2 by auto; auto).
        assert (Z1 : i = a -> rv st i = 1) by (intros ->; unfold rv; rewrite EA1 in ER1; rewrite ER1; auto).
        assert (Z2 : i = fst (i_left I1) -> lv st i = 1) by (intros ->; unfold lv; rewrite <- V2, EI1; auto).
        assert (Z3 : i = snd (i_right I2) -> rv (without st I1) i = 1) by (intros ->; unfold rv; rewrite ER2; auto).
        pose proof (prev_ne n3 an).
        rewrite V2, nxt_eqb in * by auto. rewrite EA2, nxt_eqb' in X1 by auto. rewrite EA1 in X4.
        rewrite X1, X2.
        destruct (Nat.eqb_spec i a), (Nat.eqb_spec i (prv a)), (Nat.eqb_spec i (fst (i_left I1))), (Nat.eqb_spec i (snd (i_right I2))); try lia.
      - intros u w. rewrite !cE_cons, next_prev by auto. specialize (LE' u w). rewrite S4. unfold giE at 1. cbn [fst snd].
        specialize (S1 (giE u w)). specialize (S2 (giE u w)). specialize (LE u w). lia.
      - rewrite S4. unfold gik at 1. cbn [fst snd]. specialize (S1 gik). specialize (S2 gik). lia.
    Qed.

    Variable find : status M -> nat -> res (option nat).
    Lemma split_step c b c' K : FI c D K -> sw_try_split dbg find c e = Ok (b, c') ->
      if b then FI c' (a :: D) (K + 1) /\ find (fst c) a <> Ok None else c' = c /\ find (fst c) a = Ok None.
    Proof.
      intros (T & G & C & EB & GD & TB & FD & FC & ED & LE & LK) H. destruct c as [st ix]. cbn [fst snd] in *. subst ix.
      unfold sw_try_split in H. cbn [fst snd] in H. rewrite e_here, e_prev, e_next in H. inv_ok H.
      destruct a0 as [k|]; [|injection H as <- <-; auto].
      inv_ok H. inv_ok H. inv_ok H2. subst a0.
      destruct (remove_left_eq TB H1) as [[Q _]|(I & Q & EI & EK)]; [discriminate|]. injection Q as ->. cbn [fst snd] in *. clear H1.
      destruct (t_iv TB EI) as (g & EG & IV0 & _ & ER). destruct (tab_remove TB EI EG) as (TB' & S').
      destruct IV0 as (V1 & V2 & V3 & V4 & V5 & V6 & V7). destruct g as [c1 f1]. cbn [fst snd] in *.
      inv_ok H. inv_ok H. inv_ok H. inv_ok H. inv_ok H. injection H as <- <-.
      destruct a0 as [s2 ix2], a1 as [s3 ix3]. cbn [fst snd] in *.
      destruct (insert_eq H4) as (-> & B1 & B2). destruct (insert_eq H5) as (-> & B3 & B4). cbn [fst snd i_left i_right] in *.
      assert (exists T' c' f', gd T' /\ length T <= length T' /\ buf T' = ix3 /\ iv s3 c' (length T') /\ iv s2 f' (length T') /\
         lastR c' = a /\ lastL c' = fst (i_left I) /\ lastL f' = a /\ lastR f' = fst (i_right I) /\ m_is_right s2 = false /\
        (forall u w, tnet T' u w + wE c' u w + wE f' u w = tnet T u w + giE u w (c1, f1))%Z /\
        (zlen T' + wk c' + wk f' = zlen T + gik (c1, f1) + 1)%Z)
        as (T' & c' & f' & GD' & Le & EB & Ic' & If' & R1 & R2 & R3 & R4 & R5 & LE' & LK').
      { assert (exists T1 f0, gd T1 /\ length T <= length T1 /\ ix2 = buf T1 /\ iv s2 f0 (length T1) /\ lastL f0 = a /\ lastR f0 = fst (i_right I) /\
          m_is_right s2 = false /\
          (forall u w, tnet T1 u w + wE c1 u w + wE f0 u w + nt a (lastR c1) u w = tnet T u w + giE u w (c1, f1))%Z /\
          (zlen T1 + wk c1 + wk f0 = zlen T + gik (c1, f1))%Z) as (T1 & f0 & GD1 & Le1 & -> & I1 & LL1 & LR1 & NR & E1 & K1).
        { assert (NEW : forall t T0, gd T0 -> m_left (m_new M t) a (buf T0) = Ok (s2, ix2) -> t = fst (i_right I) ->
             exists T1 f0, gd T1 /\ length T0 <= length T1 /\ ix2 = buf T1 /\ iv s2 f0 (length T1) /\ lastL f0 = a /\ lastR f0 = fst (i_right I) /\
               m_is_right s2 = false /\ (forall u w, tnet T1 u w + wE f0 u w = tnet T0 u w + nt (fst (i_right I)) a u w)%Z /\
               (zlen T1 + wk f0 = zlen T0)%Z).
          { intros t T0 G0 HN ->. destruct (new_ok (fst (i_right I)) (length T0)) as (N0 & NL & NR & NE & NK).
            destruct (@op_ok T0 _ (fresh (fst (i_right I))) true a s2 ix2 G0 N0 HN) as (T1 & f0 & -> & GD1 & I1 & Le1 & LL & LR & OP & E1 & K1).
            exists T1, f0. split; auto. split; auto. split; auto. split; auto. split; auto. split; auto.
            split; [eapply not_right; eauto|]. split; [|rewrite NK in K1; lia].
            intros u w. specialize (E1 u w). rewrite NE, NL in E1. lia. }
          unfold giE, gik. cbn [fst snd]. destruct (i_fixup I) as [fx|]; destruct f1 as [f|]; try tauto.
          - inv_ok H2. inv_ok H2. inv_ok H2. destruct a1 as [s1 ix1]. cbn [fst snd] in *. destruct V7 as (W1 & W2 & W3 & W4).
            assert (TT := law_opp W1 W4 H). 
            destruct (close_right GD W1 H6 H7) as (T0 & -> & GD0 & Le0 & E0 & K0).
            destruct (NEW _ T0 GD0 H2) as (T1 & f0 & GD1 & Le1 & EB1 & I1 & LL & LR & NR & E1 & K1); [congruence|].
            exists T1, f0. split; auto. split; [lia|]. split; auto. split; auto. split; auto. split; auto. split; auto. split; [|lia].
            intros u w. specialize (E1 u w). specialize (E0 u w). rewrite W2, W3 in *. 
            rewrite (nt_rev (lastL f) a). rewrite (nt_rev a (fst (i_right I))) in E1. lia.
          - destruct V7 as (W1 & W2).
            assert (exists t, t = fst (i_right I) /\ m_left (m_new M t) a (buf T) = Ok (s2, ix2)) as (t & Et & HN).
            { destruct (m_is_right (i_chain I)) eqn:ER2.
              - exists (i_helper I). auto.
              - inv_ok H2. exists a0. split; auto. rewrite (law_opp V5 ER2 H). auto. }
            destruct (NEW _ T GD HN Et) as (T1 & f0 & GD1 & Le1 & EB1 & I1 & LL & LR & NR & E1 & K1).
            exists T1, f0. split; auto. split; [lia|]. split; auto. split; auto. split; auto. split; auto. split; auto. split; [|lia].
            intros u w. specialize (E1 u w). rewrite W1. rewrite (nt_rev a (fst (i_right I))) in E1. lia. }
        destruct (@op_ok T1 _ c1 false a s3 ix3 GD1 (law_grow V5 Le1) H3) as (T3 & c3 & -> & GD3 & I3 & Le3 & LL3 & LR3 & OP3 & E3 & K3).
        exists T3, c3, f0. split; auto. split; [lia|]. split; auto. split; auto. split; [eapply law_grow; eauto|]. split; auto. split; [congruence|].
        split; auto. split; auto. split; auto. split; [|lia].
        intros u w. specialize (E1 u w). specialize (E3 u w). cbn in E3. lia. }
      split; [|congruence].
      assert (TB3 := tab_grow TB' Le (@incl_cons_r a D)).
      assert (F1 : nth_error (s_left (without st I)) (snd (i_left I)) = Some None) by (eapply without_l; [rewrite EK; eauto|auto]).
      assert (F2 := fresh_right TB' FD aD an). assert (F3 := fresh_left TB' FD aD an). assert (F4 := without_r ER eq_refl).
      assert (D1 : snd (i_left I) <> nxt a).
      { rewrite V2. rewrite Forall_forall in FD. intros Q. apply next_inj in Q; auto. congruence. }
      assert (D2 : prv a <> snd (i_right I)).
      { rewrite V4. rewrite Forall_forall in FD. intros Q. apply aD. rewrite <- (@next_prev n n3 a), Q, next_prev by auto. auto. }
      destruct (@tab_insert _ _ (a :: D) (length T') (mkI a (i_left I) (a, prv a) s3 None) (c', None) TB3 F1 F2) as (TB4 & S4).
      { repeat split; cbn; auto. }
      destruct (@tab_insert _ _ (a :: D) (length T') (mkI a (a, nxt a) (i_right I) s2 None) (f', None) TB4) as (TB5 & S5).
      { cbn [i_left snd]. apply none_plus_l; auto. }
      { cbn [i_right snd]. apply none_plus_r; auto. }
      { repeat split; cbn; auto. rewrite R5. discriminate. }
      eexists T', _, C. cbn [fst snd]. split; [auto|]. split; [auto|].
      split; [exact TB5|]. split; [constructor; auto|]. split; [auto|]. split; [|split].
      - assert (FD' := FD). rewrite Forall_forall in FD.
        apply edges_step with (st := st) (C := C); auto. intros i Hi. rewrite lv_plus, rv_plus by auto. rewrite lv_plus, rv_plus by auto.
        rewrite lv_without, rv_without. cbn [i_left i_right snd]. 
        assert (Z0 : i = a -> lv st i = 0) by (intros ->; unfold lv; rewrite (fresh_left TB FD' aD an); auto).
        assert (Z1 : i = prv a -> rv st i = 0) by (intros ->; unfold rv; rewrite (fresh_right TB FD' aD an); auto).
        assert (Z2 : i = fst (i_left I) -> lv st i = 1) by (intros ->; unfold lv; rewrite <- V2, EK, EI; auto).
        assert (Z3 : i = snd (i_right I) -> rv st i = 1) by (intros ->; unfold rv; rewrite ER; auto).
        pose proof (prev_ne n3 an). rewrite V2, !nxt_eqb by auto.
        destruct (Nat.eqb_spec i a), (Nat.eqb_spec i (prv a)), (Nat.eqb_spec i (fst (i_left I))), (Nat.eqb_spec i (snd (i_right I))); try lia.
      - intros u w. specialize (LE' u w). rewrite S5, S4. unfold giE at 1 2. cbn [fst snd]. rewrite EK in *.
        specialize (S' (giE u w)). specialize (LE u w). lia.
      - rewrite S5, S4. unfold gik at 1 2. cbn [fst snd]. specialize (S' gik). lia.
    Qed.

    Lemma reinsert st T K I st' : FI (st, buf T) D K -> nth_error (s_left st) (snd (i_left I)) = Some (Some I) ->
      s_ins (without st I) I = Ok st' -> st' = st.
    Proof.
      intros (T0 & G & C & EB & GD & TB & _) EI H. destruct (insert_eq H) as (-> & _). eapply plus_without; eauto.
    Qed.
    Notation b2z b := (if b then 1 else 0)%Z.
    Lemma regular_step c u c' K : FI c D K -> sw_regular dbg find c e u = Ok c' ->
      FI c' (a :: D) (K + 1 - 2 * b2z (isolated find c e) + 2 * b2z (u && between c e)).
    Proof.
      intros F H. assert (F0 := F). destruct F0 as (T & G & C & EB & GD & TB & FD & _). destruct c as [st ix]. cbn [fst snd] in *. subst ix.
      unfold sw_regular in H. cbn [fst snd] in H. rewrite e_here in H. inv_ok H.
      unfold isolated, between, present. cbn [fst]. rewrite e_here.
      destruct (remove_left_eq TB H0) as [[-> NL]|(I & -> & EI & EK)]; clear H0.
      - inv_ok H. destruct (remove_right_eq TB H0) as [[-> NR]|(I & -> & EI & EA)]; clear H0.
        + (* nothing ends here *)
          unfold sw_start_or_split in H. inv_ok H. destruct a0 as [b c2]. apply (split_step F) in H0. cbn [fst snd] in *.
          rewrite NR.
          assert (P : match nth_error (s_left st) a with Some (Some _) => true | _ => false end = false) by (destruct NL as [->| ->]; auto).
          rewrite P. cbn [negb andb]. rewrite andb_false_r. destruct b.
          * injection H as <-. destruct H0 as [H0 NF]. 
            destruct (find st a) as [[k|]| |] eqn:EF; try congruence; replace (K + 1 - 2 * 0 + 2 * 0)%Z with (K + 1)%Z by lia; auto.
          * destruct H0 as [-> EF]. rewrite EF. replace (K + 1 - 2 * 1 + 2 * 0)%Z with (K - 1)%Z by lia. eapply start_step; eauto.
        + destruct (t_iv TB EI) as (g & _ & V & _ & ER). rewrite EA in ER. rewrite ER. cbn [negb andb]. rewrite andb_false_r. cbn [andb].
          assert (P : match nth_error (s_left st) a with Some (Some v) => negb (is_end v) | _ => false end = false) by (destruct NL as [->| ->]; auto).
          rewrite P, andb_false_r. replace (K + 1 - 2 * 0 + 2 * 0)%Z with (K + 1)%Z by lia.
          destruct (u && is_end I) eqn:EU.
          * inv_ok H. rewrite (reinsert F EI H0) in H. eapply end_step; eauto.
          * inv_ok H. destruct a0 as [J|].
            { exfalso. destruct u; [|discriminate]. unfold s_peek_left, at_ in H0. inv_ok H0. unfold without in H0. cbn in H0.
              apply upd_cases in H0 as [[_ H0]|[_ H0]]; [discriminate|]. destruct NL; congruence. }
            eapply regular_right_step; eauto.
      - destruct (t_iv TB EI) as (g & _ & V & _ & ER). rewrite EI. cbn [negb andb].
        destruct (u && is_end I) eqn:EU.
        + inv_ok H. assert (EI' := EI). rewrite <- EK in EI'. rewrite (reinsert F EI' H0) in H.
          apply andb_true_iff in EU as [-> EE]. rewrite EE. cbn [negb]. rewrite andb_false_r. cbn [andb].
          replace (K + 1 - 2 * 0 + 2 * 0)%Z with (K + 1)%Z by lia. eapply end_step; eauto.
        + inv_ok H. destruct u.
          * cbn [andb] in *. rewrite EU. cbn [negb]. rewrite andb_true_r. unfold is_end in EU. apply Nat.eqb_neq in EU. rewrite EK in EU.
            unfold s_peek_right, at_ in H0. inv_ok H0. inv_ok H1.
            assert (H1' : nth_error (s_right st) a = Some a1) by (unfold without in H1; cbn in H1; rewrite nth_error_upd_ne in H1; auto).
            rewrite H1'. destruct a1 as [k|].
            { destruct a0 as [J|].
              - inv_ok H. assert (EI' := EI). rewrite <- EK in EI'. rewrite (reinsert F EI' H2) in H.
                replace (K + 1 - 2 * 0 + 2 * 1)%Z with (K + 3)%Z by lia. eapply merge_step; eauto.
              - exfalso. unfold s_peek_left, at_ in H0. inv_ok H0. unfold without in H0. cbn in H0.
                destruct (t_right TB H1') as (J & EJ & EJ2).
                destruct (t_iv TB EJ) as (g' & _ & _ & EK' & _).
                rewrite nth_error_upd_ne in H0; [congruence|]. rewrite EK. intros <-. rewrite EI in EJ. congruence. }
            { injection H0 as <-. replace (K + 1 - 2 * 0 + 2 * 0)%Z with (K + 1)%Z by lia. eapply regular_left_step; eauto. }
          * injection H0 as <-. cbn [andb]. replace (K + 1 - 2 * 0 + 2 * 0)%Z with (K + 1)%Z by lia. eapply regular_left_step; eauto.
    Qed.

    Lemma event_step c c' K : FI c D K -> sw_event dbg find c e = Ok c' ->
      FI c' (a :: D) (K + 1 - 2 * Z.of_nat (starts find c e) + 2 * Z.of_nat (merges c e)).
    Proof.
      intros F H. unfold sw_event in H. unfold starts, merges. destruct (v_type e) eqn:ET; try discriminate.
      - replace (K + 1 - 2 * Z.of_nat 1 + 2 * Z.of_nat 0)%Z with (K - 1)%Z by lia. eapply start_step; eauto.
      - inv_ok H. inv_ok H. injection H as <-. destruct a0 as [b c2]. cbn [fst snd] in *. subst b. apply (split_step F) in H0.
        replace (K + 1 - 2 * Z.of_nat 0 + 2 * Z.of_nat 0)%Z with (K + 1)%Z by lia. apply H0.
      - replace (K + 1 - 2 * Z.of_nat 0 + 2 * Z.of_nat 0)%Z with (K + 1)%Z by lia. eapply end_step; eauto.
      - replace (K + 1 - 2 * Z.of_nat 0 + 2 * Z.of_nat 1)%Z with (K + 3)%Z by lia. eapply merge_step; eauto.
      - assert (R := regular_step F H). cbn [andb] in R. destruct (isolated find c e); exact R.
      - assert (R := regular_step F H). cbn [andb] in R. destruct (isolated find c e), (between c e); exact R.
    Qed.
  End Event.

  Variable find : status M -> nat -> res (option nat).
  Definition okev (e : event) : Prop := v_here e < n /\ v_prev e = prv (v_here e) /\ v_next e = nxt (v_here e).
  Lemma events_step : forall es c c' D K, FI c D K -> Forall okev es -> NoDup (map v_here es ++ D) ->
    sw_events dbg find es c = Ok c' ->
    FI c' (rev (map v_here es) ++ D) (K + zlen es - 2 * Z.of_nat (tally dbg find (starts find) es c) + 2 * Z.of_nat (tally dbg find (@merges M) es c)).
  Proof.
    induction es as [|e es IH]; intros c c' D K F O ND H.
    - cbn in H. injection H as <-. cbn. replace (K + 0 - 0 + 0)%Z with K by lia. auto.
    - cbn in H. inv_ok H. inversion O; subst. destruct H3 as (O1 & O2 & O3). cbn in ND. inversion ND; subst.
      assert (F2 := event_step (fun Q => H3 (in_or_app _ _ _ (or_intror Q))) O1 eq_refl O2 O3 F H0).
      assert (ND2 : NoDup (map v_here es ++ v_here e :: D)).
      { apply NoDup_Add with (a := v_here e) (l := map v_here es ++ D); [apply Add_app|]. auto. }
      assert (R := IH _ _ _ _ F2 H4 ND2 H). cbn [map rev]. rewrite <- app_assoc. cbn [app].
      cbn [tally]. rewrite H0.
      match goal with |- FI _ _ ?k => match type of R with FI _ _ ?k' => replace k with k'; [exact R|] end end.
      unfold zlen. cbn [length]. lia.
  Qed.

  Lemma init_ok : FI (s_new M n, pre) [] 0.
  Proof.
    assert (R : forall A k (x : option A), nth_error (repeat None n) k = Some x -> x = None).
    { intros A k x H. apply nth_error_In in H. apply repeat_spec in H. auto. }
    assert (Z0 : forall f m, gsum f (repeat None m) = 0%Z) by (induction m; auto).
    exists [], (repeat None n), []. cbn [fst snd]. split; [cbn; rewrite app_nil_r; auto|]. split; [apply law_nil|].
    split. { split; cbn [s_new s_left s_right].
      - rewrite !repeat_length. auto.
      - intros k I H. apply R in H. discriminate.
      - intros k H. apply some_lt in H as Lt. rewrite repeat_length in Lt. rewrite nth_error_repeat; auto.
      - intros j k H. apply R in H. discriminate. }
    split; auto. split; auto. split.
    - intros i Hi. unfold lv, rv, cn, dl. cbn [s_new s_left s_right count_occ].
      assert (OC : forall A k, occ (nth_error (repeat (@None A) n) k) = 0).
      { intros A k. destruct (nth_error (repeat None n) k) as [x|] eqn:E; auto. apply R in E. subst. auto. }
      rewrite !OC. reflexivity.
    - split; [intros u w|]; rewrite Z0; reflexivity.
  Qed.

  Lemma gsum_none f : forall G, (forall k g, nth_error G k <> Some (Some g)) -> gsum f G = 0%Z.
  Proof.
    induction G as [|[g|] G IH]; intros H; auto.
    - exfalso. exact (H 0 g eq_refl).
    - cbn. apply IH. intros k. apply (H (S k)).
  Qed.
  Lemma cE_perm C C' u w : Permutation C C' -> cE C u w = cE C' u w.
  Proof. induction 1; rewrite ?cE_cons; try lia; auto. Qed.
  Lemma cE_all u w : cE (seq 0 n) u w = net (poly_edges (map idx (seq 0 n))) u w.
  Proof.
    rewrite poly_edges_map, (poly_edges_nth (seq 0 n) 0), map_map, seq_length.
    transitivity (cE (map (fun i => i) (seq 0 n)) u w); [rewrite map_id; auto|].
    assert (G : forall l, Forall (fun i => i < n) l -> cE l u w = net (map (fun x => (idx (fst (nth x (seq 0 n) 0, nth ((x + 1) mod n) (seq 0 n) 0)), idx (snd (nth x (seq 0 n) 0, nth ((x + 1) mod n) (seq 0 n) 0)))) l) u w).
    { induction 1 as [|x l Hx Hl IH]; [reflexivity|]. cbn [map]. rewrite net_cons, <- IH. cbn [cE fold_right]. f_equal.
      unfold nt. cbn [fst snd]. rewrite !seq_nth; auto. apply Nat.mod_upper_bound. lia. }
    rewrite map_id. apply G. apply Forall_forall. intros x Hx. apply in_seq in Hx. lia.
  Qed.

  Lemma sweep_ok es st ix : sweep dbg find n es pre = Ok (st, ix) -> queue_of n es -> all_closed st ->
    exists T, ix = pre ++ flatten T /\ covers (map idx (seq 0 n)) T /\
      length T + 2 * tally dbg find (starts find) es (s_new M n, pre) = n + 2 * tally dbg find (@merges M) es (s_new M n, pre).
  Proof.
    intros H [Q1 Q2] AC. unfold sweep in H. inv_ok H. inv_ok H. inv_ok H. inv_ok H. inv_ok H.
    assert (O : Forall okev es).
    { rewrite Forall_forall in *. intros e He. destruct (Q2 e He) as [A B]. split; auto.
      apply (in_map v_here) in He. apply (Permutation_in _ Q1) in He. apply in_seq in He. lia. }
    assert (ND : NoDup (map v_here es ++ [])).
    { rewrite app_nil_r. eapply Permutation_NoDup; [apply Permutation_sym; eauto|apply seq_NoDup]. }
    destruct (events_step init_ok O ND H) as (T & G & C & EB & GD & TB & FD & FC & ED & LE & LK). cbn [fst snd] in *.
    exists T. split; auto.
    assert (NG : forall k g, nth_error G k <> Some (Some g)).
    { intros k g Hk. apply some_lt in Hk as Lt. destruct (t_len TB) as (L1 & L2 & L3).
      destruct (nth_error (s_left st) k) as [[I|]|] eqn:E.
      - exact (AC k I E).
      - rewrite (t_none TB E) in Hk. discriminate.
      - apply nth_error_None in E. lia. }
    rewrite gsum_none in LK by auto.
    assert (NR : forall i, rv st i = 0).
    { intros i. unfold rv. destruct (nth_error (s_right st) i) as [[k|]|] eqn:E; auto.
      destruct (t_right TB E) as (I & EI & _). exfalso. exact (AC _ _ EI). }
    assert (NL : forall i, lv st i = 0).
    { intros i. unfold lv. destruct (nth_error (s_left st) (nxt i)) as [[k|]|] eqn:E; auto. exfalso. exact (AC _ _ E). }
    assert (DD : forall i, i < n -> dl (rev (map v_here es) ++ []) i = 1).
    { intros i Hi. unfold dl. destruct (in_dec _ _ _) as [|N]; auto. exfalso. apply N. rewrite app_nil_r, <- in_rev.
      apply (Permutation_in _ (Permutation_sym Q1)). apply in_seq. lia. }
    assert (CC : forall i, i < n -> cn C i = 1).
    { intros i Hi. specialize (ED i Hi). rewrite NL, NR, !DD in ED by (auto; apply next_lt; auto). lia. }
    assert (PC : Permutation C (seq 0 n)).
    { apply NoDup_Permutation; [|apply seq_NoDup|].
      - apply (NoDup_count_occ Nat.eq_dec). intros x. destruct (lt_dec x n) as [Hx|Hx].
        + rewrite (CC x Hx : count_occ _ _ _ = 1). lia.
        + rewrite (proj1 (count_occ_not_In Nat.eq_dec C x)); [lia|]. intros Q. rewrite Forall_forall in FC. specialize (FC _ Q). lia.
      - intros x. rewrite in_seq. split.
        + intros Q. rewrite Forall_forall in FC. specialize (FC _ Q). lia.
        + intros [_ Q]. apply (count_occ_In Nat.eq_dec). rewrite (CC x Q : count_occ _ _ _ = 1). lia. }
    split.
    - intros u w. change (tnet T u w = net (poly_edges (map idx (seq 0 n))) u w). rewrite <- cE_all, <- (cE_perm u w PC), <- LE, gsum_none by auto. lia.
    - assert (length es = n). { rewrite <- (map_length v_here), (Permutation_length Q1), seq_length. auto. }
      unfold zlen in LK. lia.
  Qed.
End Proofs.
