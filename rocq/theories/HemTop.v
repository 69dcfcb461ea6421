(** [loft_polygon_back] around a whole boundary loop, and ending early. *)
From Coq Require Import List Arith Lia Bool Permutation.
From Verif Require Import Base DVec DVecFacts Mesh Spec Rep Splice Cycle Traverse Room Ops MeshSpec MeshProofs
  MeshMore MeshTotal MeshFacts NetProofs BuildSpec Solid BuildStep PathProofs ApexProofs LoftProofs HemSpec HemProofs.
Import ListNotations.
Set Implicit Arguments.
Unset Strict Implicit.

Lemma split_len {A} (l : list A) j : j <= length l -> exists p q, l = p ++ q /\ length q = j.
Proof.
  intros H. exists (firstn (length l - j) l), (skipn (length l - j) l). split; [symmetry; apply firstn_skipn|].
  rewrite skipn_length. lia.
Qed.
Lemma split_front {A} (l : list A) j : j <= length l -> exists p q, l = p ++ q /\ length p = j.
Proof. intros H. exists (firstn j l), (skipn j l). split; [symmetry; apply firstn_skipn|]. rewrite firstn_length. lia. Qed.
Lemma split_last {A} (l : list A) d : l <> [] -> exists p, l = p ++ [last l d].
Proof. intros H. destruct (exists_last H) as (p & x & ->). exists p. rewrite last_last. auto. Qed.

Local Arguments abs : simpl never.
Section HemTop.
  Context {VP EP FP : Type}.
  Notation graph := (graph VP EP FP).
  Notation mesh := (mesh VP EP FP).
  Implicit Types (g : graph) (m : mesh).
  Variable (dE : EP) (dF : FP).

  Lemma back_ok m y : wf m -> forall b l r, loop (abs m) (l ++ y :: b ++ r) -> back_steps m (length b) (last (y :: b) 0) = Ok y.
  Proof.
    intros Wm. induction b as [|z b IH] using rev_ind; intros l r H; auto.
    rewrite app_length, Nat.add_comm. cbn [length Nat.add back_steps].
    assert (Q : last (y :: b ++ [z]) 0 = z) by (rewrite app_comm_cons; apply last_last). rewrite Q.
    destruct (@split_last _ (y :: b) 0) as (p & EP'); [discriminate|].
    assert (EQ : l ++ y :: (b ++ [z]) ++ r = (l ++ p) ++ last (y :: b) 0 :: z :: r).
    { rewrite <- (app_assoc l). f_equal. transitivity ((y :: b) ++ z :: r); [cbn; rewrite <- app_assoc; auto|].
      rewrite EP' at 1. rewrite <- app_assoc. auto. }
    assert (Lz : lv (abs m) z = true) by (apply (loop_live' H); rewrite EQ; inl).
    rewrite (get_prev Wm Lz). cbn [bind]. rewrite (loop_pv_at (wfW Wm) H EQ). apply (IH l (z :: r)).
    assert (Q2 : l ++ y :: (b ++ [z]) ++ r = l ++ y :: b ++ z :: r) by (rewrite <- app_assoc; auto). rewrite <- Q2. auto.
  Qed.

  Section Loop.
    Variables (c : cfg) (m0 : mesh) (n k : nat) (L : list nat) (w0 s0 start sv : nat).
    Hypotheses (Wm0 : wf m0) (HL : loop (abs m0) L) (NL : L <> []) (LST : lv (abs m0) start = true) (N : 2 <= n) (K : 2 <= k).

    (** the start of a turn of the loop *)
    Lemma hem_turn m pre Bs sp Ts ws fs xs ret vps fl : hem_state dF m0 m n k L w0 pre Bs s0 sp [] Ts ws fs xs -> pre <> [] ->
      exists l, tw (abs m) s0 :: pre = l ++ [last pre 0] /\ l <> [] /\
      pb_loop dE dF c m n k start sv (last pre 0) ret vps (S fl) =
        let* s := pb_chain dE c m (n - 2) start (hd s0 sp) ret vps in
        match s with
        | inr r => Ok r
        | inl (m, inside, ret, vps) => let* input := back_steps m (k - 2) (last l 0) in round_code dE dF c n k start m sv inside input ret vps fl
        end.
    Proof.
      intros A NP. pose proof (hs_wf A) as Wm. pose proof (wfW Wm) as W. pose proof (ho_hole (hs_open A)) as H. cbn [map rev app] in H.
      destruct (split_last 0 NP) as (p & EP'). set (x := last pre 0) in *.
      exists (tw (abs m) s0 :: p). split; [rewrite EP'; auto|]. split; [discriminate|].
      destruct (@split_last _ (tw (abs m) s0 :: p) 0) as (l & EL); [discriminate|]. set (y := last (tw (abs m) s0 :: p) 0) in *.
      assert (EQ : hd s0 sp :: concat Ts ++ tw (abs m) s0 :: pre = hd s0 sp :: (concat Ts ++ l ++ [y]) ++ [x]).
      { rewrite EP', <- EL. rewrite <- !app_assoc. auto. }
      assert (Lx : lv (abs m) x = true) by (apply (hole_live H); rewrite EQ; right; inl).
      assert (Ly : lv (abs m) y = true) by (apply (hole_live H); rewrite EQ; right; rewrite !in_app_iff; cbn; tauto).
      assert (EQ2 : hd s0 sp :: concat Ts ++ tw (abs m) s0 :: pre = (hd s0 sp :: concat Ts ++ l) ++ y :: x :: []).
      { rewrite EQ. cbn. rewrite <- !app_assoc. auto. }
      cbn [pb_loop]. rewrite (get_prev Wm Lx), (loop_pv_at W (proj1 H) EQ2). cbn [bind].
      rewrite (get_gnext Wm Ly), (loop_nx_at (proj1 H) EQ2). cbn [bind]. rewrite (get_next Wm Lx), (loop_nx_wrap (proj1 H) EQ). cbn [bind].
      reflexivity.
    Qed.

    Lemma last_snoc_ne {A} (l : list A) d e : l <> [] -> last l d = last l e.
    Proof. destruct l; [congruence|]. intros _. apply last_dft. Qed.

    Lemma hem_enter m p0 B Bs sp Ts ws fs xs q rest fl a b d : hem_state dF m0 m n k L w0 (p0 ++ B) Bs s0 sp [] Ts ws fs xs ->
      S (length B) = k -> length q + 2 = n -> fits c m (2 * length q + a) (length q + b) d ->
      exists m' cs ws', pb_loop dE dF c m n k start sv (last (p0 ++ B) 0) (last (concat Ts) start) (q ++ rest) (S fl) =
          round_code dE dF c n k start m' sv (last (hd s0 sp :: cs) 0) (last (tw (abs m') s0 :: p0) 0) (last (rim m' cs Ts) start) rest fl /\
        hem_state dF m0 m' n k L w0 (p0 ++ B) Bs s0 sp cs Ts ws' fs (firstn 1 xs ++ rev q ++ tl xs) /\ fits c m' a b d /\
        length cs = length q.
    Proof.
      intros A LB LQ F. assert (NP : p0 ++ B <> []).
      { intros Q. apply app_eq_nil in Q as [_ ->]. cbn in LB. lia. }
      destruct (@hem_turn _ _ _ _ _ _ _ _ (last (concat Ts) start) (q ++ rest) fl A NP) as (l & EL & NL' & E).
      destruct (@hem_chain _ _ _ dE dF c m0 n k L w0 s0 start Wm0 LST 0 rest N K q _ _ _ _ _ _ _ _ _ _ _ _ A F)
        as (m' & cs & ws' & EC & A' & F' & LC & TS).
      exists m', cs, ws'. split; [|split; auto].
      rewrite E. replace (n - 2) with (length q + 0) by lia. cbn [last map rev app] in EC.
      assert (Q0 : rim m [] Ts = concat Ts) by reflexivity. rewrite Q0 in EC. rewrite EC. cbn [pb_chain bind].
      destruct (@exists_last _ B) as (b' & x & EB); [intros ->; cbn in LB; lia|].
      assert (EL' : l = tw (abs m) s0 :: p0 ++ b').
      { rewrite EB, app_assoc, last_last, app_comm_cons in EL. apply app_inj_tail in EL as [EL _]. auto. }
      set (y1 := last (tw (abs m') s0 :: p0) 0).
      destruct (@split_last _ (tw (abs m') s0 :: p0) 0) as (l1 & EL1); [discriminate|]. fold y1 in EL1.
      assert (QL : last l 0 = last (y1 :: b') 0).
      { rewrite EL', <- TS, app_comm_cons, EL1, <- app_assoc. cbn [app]. apply last_app_cons. }
      assert (LB' : k - 2 = length b') by (rewrite EB, app_length in LB; cbn in LB; lia).
      rewrite QL, LB'. rewrite (@back_ok m' y1 (hs_wf A') b' (hd s0 sp :: cs ++ rim m' cs Ts ++ l1) [x]); [reflexivity|].
      pose proof (proj1 (ho_hole (hs_open A'))) as H. fold (rim m' cs Ts) in H.
      assert (Q : hd s0 sp :: cs ++ rim m' cs Ts ++ tw (abs m') s0 :: p0 ++ B = (hd s0 sp :: cs ++ rim m' cs Ts ++ l1) ++ y1 :: b' ++ [x]).
      { rewrite EB. rewrite (app_comm_cons p0), EL1. cbn. rewrite <- !app_assoc. auto. }
      rewrite <- Q. exact H.
    Qed.

    Lemma hem_short m pre Bs sp Ts ws fs xs q fl a b d : hem_state dF m0 m n k L w0 pre Bs s0 sp [] Ts ws fs xs -> pre <> [] ->
      length q + 2 < n -> fits c m (2 * length q + a) (length q + b) d ->
      exists m' cs ws', pb_loop dE dF c m n k start sv (last pre 0) (last (concat Ts) start) q (S fl) = Ok (m', last (rim m' cs Ts) start) /\
        hem_state dF m0 m' n k L w0 pre Bs s0 sp cs Ts ws' fs (firstn 1 xs ++ rev q ++ tl xs) /\ fits c m' a b d /\
        length cs = length q.
    Proof.
      intros A NP LQ F.
      destruct (@hem_turn _ _ _ _ _ _ _ _ (last (concat Ts) start) q fl A NP) as (l & EL & NL' & E).
      destruct (@hem_chain _ _ _ dE dF c m0 n k L w0 s0 start Wm0 LST (S (n - 3 - length q)) [] N K q _ _ _ _ _ _ _ _ _ _ _ _ A F)
        as (m' & cs & ws' & EC & A' & F' & LC & TS).
      exists m', cs, ws'. split; [|split; auto].
      rewrite E. replace (n - 2) with (length q + S (n - 3 - length q)) by lia. cbn [last map rev app] in EC.
      assert (Q0 : rim m [] Ts = concat Ts) by reflexivity. rewrite Q0, app_nil_r in EC. rewrite EC. reflexivity.
    Qed.

    Lemma hem_rounds rest fl : forall j Q m pre Bs sp Ts ws fs xs a b d, hem_state dF m0 m n k L w0 pre Bs s0 sp [] Ts ws fs xs ->
      j * (k - 1) < length pre -> length Q = j * (n - 1) ->
      fits c m (2 * n * j + a) (length Q + b) (j + d) ->
      exists m' pre' Bs' sp' Ts' ws' fs',
        pb_loop dE dF c m n k start sv (last pre 0) (last (concat Ts) start) (Q ++ rest) (j + fl) =
          pb_loop dE dF c m' n k start sv (last pre' 0) (last (concat Ts') start) rest fl /\
        hem_state dF m0 m' n k L w0 pre' Bs' s0 sp' [] Ts' ws' fs' (firstn 1 xs ++ rev Q ++ tl xs) /\ fits c m' a b d /\
        length pre = length pre' + j * (k - 1) /\ length Bs' = length Bs + j.
    Proof.
      induction j as [|j IH]; intros Q m pre Bs sp Ts ws fs xs a b d A LP LQ F.
      - destruct Q; [|discriminate]. exists m, pre, Bs, sp, Ts, ws, fs. cbn [app rev length Nat.add] in *. split; auto.
        split; [destruct xs; auto|]. split; [|lia]. eapply fits_le; eauto; try apply A; lia.
      - rewrite Nat.mul_succ_l in LP, LQ. pose proof (Nat.le_0_l (j * (k - 1))) as JK. pose proof (Nat.le_0_l (j * (n - 1))) as JN.
        destruct (@split_len _ pre (k - 1)) as (p0 & B & EP' & LB); [lia|].
        destruct (@exists_last _ p0) as (p1 & y1 & E0).
        { intros ->. cbn in EP'. subst B. lia. }
        destruct (@split_front _ Q (n - 2)) as (q & Q1 & EQ & Lq); [lia|]. subst Q. rewrite app_length in LQ.
        destruct Q1 as [|x Q2]; [cbn in LQ; lia|]. cbn [length] in LQ.
        assert (F1 : fits c m (2 * length q + (4 + (2 * n * j + a))) (length q + S (length Q2 + b)) (S (j + d))).
        { eapply fits_le; [apply A|exact F|..]; rewrite ?app_length; cbn [length]; nia. }
        rewrite EP' in A.
        assert (LB' : S (length B) = k) by lia. assert (Lq' : length q + 2 = n) by lia.
        destruct (@hem_enter _ _ _ _ _ _ _ _ _ q (x :: Q2 ++ rest) (j + fl) _ _ _ A LB' Lq' F1) as (m1 & cs & ws1 & E1 & A1 & F2 & LC).
        assert (QY : last (tw (abs m1) s0 :: p0) 0 = y1) by (rewrite E0, app_comm_cons; apply last_last).
        rewrite QY in E1. rewrite E0, <- app_assoc in A1. cbn [app] in A1.
        assert (LC' : length cs + 2 = n) by lia.
        destruct (@hem_round _ _ _ dE dF c m0 n k L w0 s0 start Wm0 HL LST m1 p1 y1 B Bs sp cs Ts ws1 fs _ sv (j + fl) x (Q2 ++ rest) _ _ _ N K A1 F2 LB' LC')
          as (m2 & u & z2 & w & f & E2 & A2 & F3).
        assert (L2 : j * (k - 1) < length (p1 ++ [y1])).
        { rewrite <- E0. pose proof (f_equal (@length _) EP') as X. rewrite app_length in X. lia. }
        assert (LQ2 : length Q2 = j * (n - 1)) by lia.
        destruct (IH Q2 m2 _ _ _ _ _ _ _ a b d A2 L2 LQ2 F3) as (m3 & pre' & Bs' & sp' & Ts' & ws' & fs' & E3 & A3 & F4 & LL & LBs).
        exists m3, pre', Bs', sp', Ts', ws', fs'. split; [|split; [|split; [|split]]]; auto.
        + rewrite <- app_assoc. cbn [app Nat.add]. rewrite EP', E1, E2. rewrite <- E3, last_last. reflexivity.
        + assert (QX : firstn 1 xs ++ rev (q ++ x :: Q2) ++ tl xs = firstn 1 (firstn 1 xs ++ rev q ++ tl xs) ++ rev Q2 ++ x :: tl (firstn 1 xs ++ rev q ++ tl xs)).
          { pose proof (ho_pay (hs_open A)) as P. destruct xs as [|x0 xs]; [discriminate|]. cbn [firstn tl app].
            rewrite rev_app_distr. cbn [rev]. rewrite <- !app_assoc. auto. }
          rewrite QX. pose proof (ho_pay (hs_open A1)) as P.
          destruct (firstn 1 xs ++ rev q ++ tl xs) as [|x0 xs0] eqn:EX; [discriminate|]. cbn [hd tl firstn app] in *. exact A3.
        + rewrite EP', app_length, LB. rewrite <- E0 in LL. lia.
        + cbn [length] in LBs. lia.
    Qed.
  End Loop.

  Lemma hem_first c m n k start t y a b d : wf m -> hole (abs m) (start :: t) -> fits c m (2 + a) (S b) d ->
    exists m1 v e1 e2, via dE c m start (nx (abs m) start) y = Ok (m1, v, e1, e2) /\ fits c m1 a b d /\
      hem_state dF m m1 n k (t ++ [start]) v (t ++ [start]) [] e1 [] [] [] [] [] [y].
  Proof.
    intros Wm H F. pose proof (wfW Wm) as W.
    destruct (do_via dE y Wm F H eq_refl) as (m1 & v & e1 & e2 & E & Wm1 & F1 & G & H1 & T1 & T2 & O1 & O2 & Y).
    assert (Ls : lv (abs m) start = true) by (apply (hole_live H); left; auto).
    exists m1, v, e1, e2. split; auto. split; auto.
    assert (O : target (abs m) start = og (abs m) (hd 0 (t ++ [start]))).
    { destruct t as [|e t]; cbn [app hd]; [|symmetry; apply (loop_og W (proj1 H))].
      rewrite <- (loop_nx_one (proj1 H)) at 2. symmetry. apply (wf_ognx W _ Ls). }
    split; auto.
    - split; cbn [map rev app concat hd].
      + rewrite app_nil_r. auto.
      + intros B [].
      + intros B [].
      + rewrite T1. eapply grown_weaken; [exact G|]. intros z. inl.
      + cbn. auto.
      + cbn. auto.
      + split; [apply (gr_new_e G); left; auto|]. split; [rewrite O1; exact O|]. unfold target. rewrite T1; auto.
      + rewrite T1. apply (@hole_rot _ _ _ _ [start] (e1 :: e2 :: t)). exact H1.
      + rewrite Y. auto.
    - cbn [last hd]. unfold target. rewrite T1; auto.
    - cbn [map rev app concat firstn]. rewrite <- O. apply (nbrs_via Wm G Ls T1 T2 O1 O2).
  Qed.

  (** Once around: [N] polygons, each with [n] corners from the payloads and [k] from the loop. *)
  Lemma loft_hem_total c m n k N start t y ys a b d : wf m -> 2 <= n -> 2 <= k -> hole (abs m) (start :: t) ->
    length (start :: t) = N * (k - 1) -> length (y :: ys) = N * (n - 1) -> 3 <= length (y :: ys) ->
    fits c m (2 * n * N + a) (N * (n - 1) + b) (N + d) ->
    exists m' Bs ps Ts vs fs, loft_polygon_back dE dF c m start n k (y :: ys) = Ok (m', last (concat Ts) 0) /\ wf m' /\ fits c m' a b d /\
      length Bs = N /\ hem_built (abs m) (abs m') n k (t ++ [start]) (y :: rev ys) dF Bs ps Ts vs fs.
  Proof.
    intros Wm N2 K2 H LL LY L3 F. pose proof (wfW Wm) as W.
    assert (Ls : lv (abs m) start = true) by (apply (hole_live H); left; auto).
    assert (HL : loop (abs m) (t ++ [start])) by (apply (@loop_rot _ _ _ _ [start] t); apply H).
    assert (NL : t ++ [start] <> []) by (destruct t; discriminate).
    destruct N as [|N]; [cbn in LY; lia|].
    set (j := N) in *.
    assert (LY' : length ys = j * (n - 1) + (n - 2)) by (cbn [length] in *; nia).
    destruct (@split_front _ ys (j * (n - 1))) as (Q & q & EQ & LQ); [lia|].
    assert (Lq : length q + 2 = n) by (rewrite EQ, app_length in LY'; lia).
    assert (F0 : fits c m (2 + (2 * n * j + (2 * length q + (2 + a)))) (S (length Q + (length q + b))) (j + S d)).
    { eapply fits_le; [exact Wm|exact F|..]; nia. }
    destruct (@hem_first c m n k start t y _ _ _ Wm H F0) as (m1 & v & e1 & e2 & E & F1 & A).
    assert (LP : j * (k - 1) < length (t ++ [start])).
    { rewrite app_length. cbn [length] in *. nia. }
    set (sv := target (abs m) start).
    set (fl := S (length ys - j)).
    destruct (@hem_rounds c m n k _ v e1 start sv Wm HL Ls N2 K2 q fl j Q _ _ _ _ _ _ _ _ _ _ _ A LP LQ F1)
      as (m2 & B & Bs & sp & Ts & ws & fs & E2 & A2 & F2 & LP2 & LB2).
    cbn [firstn tl app] in A2. rewrite app_nil_r in A2.
    assert (LB : S (length B) = k).
    { rewrite app_length in LP2. cbn [length] in *. nia. }
    assert (A2' : hem_state dF m m2 n k (t ++ [start]) v ([] ++ B) Bs e1 sp [] Ts ws fs (y :: rev Q)) by exact A2.
    destruct (@hem_enter c m n k _ v e1 start sv Wm Ls N2 K2 m2 [] B Bs sp Ts ws fs _ q [] (length ys - j) _ _ _ A2' LB Lq F2)
      as (m3 & cs & ws3 & E3 & A3 & F3 & LC).
    cbn [app] in A3, E3. cbn [firstn tl app] in A3. rewrite app_nil_r in E3. change (last [tw (abs m3) e1] 0) with (tw (abs m3) e1) in E3.
    assert (O : target (abs m) start = og (abs m) (hd 0 (t ++ [start]))).
    { destruct t as [|e t']; cbn [app hd]; [|symmetry; apply (loop_og W (proj1 H))].
      rewrite <- (loop_nx_one (proj1 H)) at 2. symmetry. apply (wf_ognx W _ Ls). }
    assert (PY : rev q ++ rev Q = rev ys) by (rewrite EQ, rev_app_distr; auto).
    assert (LW : 2 <= length ws3).
    { pose proof (f_equal (@length _) (ho_pay (hs_open A3))) as X. rewrite !map_length in X. cbn [length] in X. rewrite PY, rev_length in X.
      cbn [length] in L3. lia. }
    assert (LC' : length cs + 2 = n) by lia.
    destruct (@hem_close _ _ _ dE dF c m n k _ v e1 start Wm HL m3 B Bs sp cs Ts ws3 fs _ (length ys - j) a b d N2 K2 A3 F3 LB LC' LW)
      as (m4 & z2 & f & E4 & Wm4 & F4 & HB).
    rewrite PY in HB.
    exists m4, (B :: Bs), (e1 :: sp), ((z2 :: rev (map (tw (abs m3)) cs)) :: Ts), (v :: ws3), (f :: fs).
    split; [|split; auto; split; auto; split; auto; cbn [length] in *; lia].
    unfold loft_polygon_back. apply Nat.leb_le in N2 as N2'. apply Nat.leb_le in K2 as K2'. rewrite N2', K2'. cbn [assert].
    rewrite (get_target Wm Ls). cbn [bind]. rewrite (get_next Wm Ls). cbn [bind]. rewrite E. cbn [bind].
    rewrite last_last in E2. cbn [concat last] in E2. fold sv.
    assert (EF : S (length ys) = j + fl) by (unfold fl; nia).
    rewrite EF, EQ at 1. rewrite E2. fold fl in E3. rewrite E3. unfold sv. rewrite O, E4. unfold rim. reflexivity.
  Qed.

  (** Ending early: [j] polygons and [r] further half-edges; the rest of the loop stays open. *)
  Lemma loft_hem_open c m n k j r start t y ys a b d : wf m -> 2 <= n -> 2 <= k -> hole (abs m) (start :: t) ->
    NoDup (map (og (abs m)) (start :: t)) ->
    j * (k - 1) + k <= length (start :: t) -> length ys = j * (n - 1) + r -> r + 2 <= n ->
    fits c m (2 + 2 * n * j + 2 * r + a) (S (length ys) + b) (j + d) ->
    exists m' pre Bs s0 sp cs Ts w0 ws fs,
      loft_polygon_back dE dF c m start n k (y :: ys) = Ok (m', last (rev (map (tw (abs m')) cs) ++ concat Ts) start) /\ wf m' /\ fits c m' a b d /\
      length Bs = j /\ length cs = r /\ hem_open (abs m) (abs m') n k (t ++ [start]) (y :: rev ys) dF pre Bs s0 sp cs Ts w0 ws fs.
  Proof.
    intros Wm N2 K2 H NDO LL LY R2 F. pose proof (wfW Wm) as W.
    assert (Ls : lv (abs m) start = true) by (apply (hole_live H); left; auto).
    assert (HL : loop (abs m) (t ++ [start])) by (apply (@loop_rot _ _ _ _ [start] t); apply H).
    destruct (@split_front _ ys (j * (n - 1))) as (Q & q & EQ & LQ); [lia|].
    assert (Lq : length q = r) by (rewrite EQ, app_length in LY; lia).
    assert (F0 : fits c m (2 + (2 * n * j + (2 * length q + a))) (S (length Q + (length q + b))) (j + d)).
    { eapply fits_le; [exact Wm|exact F|..]; rewrite ?EQ, ?app_length; nia. }
    destruct (@hem_first c m n k start t y _ _ _ Wm H F0) as (m1 & v & e1 & e2 & E & F1 & A).
    assert (LP : j * (k - 1) < length (t ++ [start])).
    { rewrite app_length. cbn [length] in *. lia. }
    set (sv := target (abs m) start).
    set (fl := S (length ys - j)).
    destruct (@hem_rounds c m n k _ v e1 start sv Wm HL Ls N2 K2 q fl j Q _ _ _ _ _ _ _ _ _ _ _ A LP LQ F1)
      as (m2 & pre & Bs & sp & Ts & ws & fs & E2 & A2 & F2 & LP2 & LB2).
    cbn [firstn tl app] in A2. rewrite app_nil_r in A2.
    assert (PY : rev q ++ rev Q = rev ys) by (rewrite EQ, rev_app_distr; auto).
    assert (EF : S (length ys) = j + fl) by (unfold fl; nia).
    assert (O : target (abs m) start = og (abs m) (hd 0 (t ++ [start]))).
    { destruct t as [|e t']; cbn [app hd]; [|symmetry; apply (loop_og W (proj1 H))].
      rewrite <- (loop_nx_one (proj1 H)) at 2. symmetry. apply (wf_ognx W _ Ls). }
    assert (LPP : k <= length pre) by (rewrite app_length in LP2; cbn [length] in *; lia).
    assert (EE : loft_polygon_back dE dF c m start n k (y :: ys) =
                 pb_loop dE dF c m2 n k start sv (last pre 0) (last (concat Ts) start) q fl).
    { unfold loft_polygon_back. apply Nat.leb_le in N2 as N2'. apply Nat.leb_le in K2 as K2'. rewrite N2', K2'. cbn [assert].
      rewrite (get_target Wm Ls). cbn [bind]. rewrite (get_next Wm Ls). cbn [bind]. rewrite E. cbn [bind].
      rewrite last_last in E2. cbn [concat last] in E2. fold sv. rewrite EF, EQ at 1. exact E2. }
    rewrite EE.
    destruct (le_lt_dec n (r + 2)) as [RN|RN].
    - assert (Lq' : length q + 2 = n) by lia.
      destruct (@split_len _ pre (k - 1)) as (p0 & B & EP' & LB); [lia|].
      destruct (@exists_last _ p0) as (p1 & y1 & E0).
      { intros ->. cbn in EP'. subst B. lia. }
      assert (LB' : S (length B) = k) by lia.
      rewrite EP' in A2 |- *.
      destruct (@hem_enter c m n k _ v e1 start sv Wm Ls N2 K2 m2 p0 B Bs sp Ts ws fs _ q [] (length ys - j) _ _ _ A2 LB' Lq' F2)
        as (m3 & cs & ws3 & E3 & A3 & F3 & LC).
      rewrite app_nil_r in E3. fold fl in E3. rewrite E3. cbn [firstn tl app] in A3. rewrite PY in A3.
      assert (QY : last (tw (abs m3) e1 :: p0) 0 = y1) by (rewrite E0, app_comm_cons; apply last_last). rewrite QY.
      pose proof (hs_wf A3) as Wm3. pose proof (wfW Wm3) as W3. pose proof (ho_hole (hs_open A3)) as H3. pose proof (ho_grown (hs_open A3)) as G3.
      destruct B as [|b0 B']; [cbn in LB; lia|].
      assert (EL : (t ++ [start]) = (p1 ++ [y1]) ++ b0 :: B' ++ concat Bs).
      { rewrite (ho_L (hs_open A3)), E0, <- !app_assoc. cbn. auto. }
      assert (Ly : lv (abs m) y1 = true) by (apply (loop_live' HL); rewrite EL; inl).
      assert (NY : nx (abs m) y1 = b0).
      { apply (loop_nx_at (p := p1) (q := B' ++ concat Bs) HL). rewrite EL, <- app_assoc. auto. }
      assert (TY : target (abs m3) y1 = og (abs m) b0).
      { rewrite (gr_target W G3 Ly), <- NY. symmetry. apply (wf_ognx W _ Ly). }
      unfold round_code. rewrite (get_target Wm3 (gr_live_e G3 Ly)). cbn [bind]. rewrite TY.
      assert (NE : (sv =? og (abs m) b0) = false).
      { apply Nat.eqb_neq. unfold sv. rewrite O. intros X.
        assert (ND : NoDup (map (og (abs m)) (t ++ [start]))).
        { eapply Permutation_NoDup; [|exact NDO]. apply Permutation_map. apply Permutation_cons_append. }
        rewrite EL in ND, X. rewrite hd_app in X by (destruct p1; discriminate).
        rewrite map_app in ND. cbn [map] in ND. apply NoDup_remove_2 in ND. apply ND. apply in_app_iff. left. rewrite <- X.
        apply in_map. destruct p1; cbn; auto. }
      rewrite NE. exists m3, (p0 ++ b0 :: B'), Bs, e1, sp, cs, Ts, v, ws3, fs.
      split; [reflexivity|]. split; auto. split; auto. split; [cbn [length] in LB2; lia|]. split; [lia|apply A3].
    - assert (NP : pre <> []) by (intros ->; cbn in LPP; lia).
      assert (Lq' : length q + 2 < n) by lia.
      destruct (@hem_short c m n k _ v e1 start sv Wm Ls N2 K2 m2 pre Bs sp Ts ws fs _ q (length ys - j) _ _ _ A2 NP Lq' F2)
        as (m3 & cs & ws3 & E3 & A3 & F3 & LC).
      cbn [firstn tl app] in A3. rewrite PY in A3.
      exists m3, pre, Bs, e1, sp, cs, Ts, v, ws3, fs. split; [exact E3|]. split; [apply A3|]. split; auto.
      split; [cbn [length] in LB2; lia|]. split; [lia|apply A3].
  Qed.
End HemTop.
