(** Cutting one face preserves the shape of the mesh. *)
From Coq Require Import List Arith Lia Bool.
From Verif Require Import Base DVec DVecFacts Mesh Spec Rep Splice Cycle Traverse Room Ops Ops2 Subdivision SubdivSpec SubdivStep SubdivFace SubdivInv.
Import ListNotations.
Set Implicit Arguments.
Unset Strict Implicit.

Section Cut.
  Context {VP EP FP : Type}.
  Notation mesh := (mesh VP EP FP).
  Notation graph := (graph VP EP FP).
  Implicit Types (g : graph) (m : mesh) (c : cfg) (q : st).
  Variable g0 : graph.
  Variable W : WF g0.
  Variable T : triangles g0.
  Variable phi : list (nat * VP) -> VP.
  Notation Inv := (Inv g0 phi).
  Notation F0 := (F0 g0).
  Notation pre := (pre g0).
  Notation dom := (dom g0).

  Definition q_cut q (P : parts) (f : nat) : st :=
    mkSt (sp q) (fu (pr q) f true) (sn q)
      (asc [(x1 P, c1 P); (x2 P, c2 P); (x3 P, c3 P)] (cn q))
      (asc [(x1 P, d1 P); (x2 P, d2 P); (x3 P, d3 P)] (dn q))
      (mu q)
      (asc [(x1 P, k1 P); (x2 P, k2 P); (x3 P, k3 P)] (ka q))
      (fu (ze q) f (k4 P)).

  Section At.
    Variables (q : st) (g : graph) (f a1 a2 a3 b1 b2 b3 u1 u2 u3 w1 w2 w3 h1 h2 h3 h4 : nat).
    Let P := mkP a1 a2 a3 b1 b2 b3 u1 u2 u3 w1 w2 w3 h1 h2 h3 h4.
    Hypothesis I : Inv q g.
    Hypothesis LF : lvf g0 f = true.
    Hypothesis NP : pr q f = false.
    Hypothesis L1 : lv g0 a1 = true.
    Hypothesis FA : F0 a1 = f.
    Hypothesis EA2 : nx g0 a1 = a2.
    Hypothesis EA3 : nx g0 a2 = a3.
    Hypothesis S1 : sp q a1 = true.
    Hypothesis S2 : sp q a2 = true.
    Hypothesis S3 : sp q a3 = true.
    Hypothesis B1 : sn q a1 = b1.
    Hypothesis B2 : sn q a2 = b2.
    Hypothesis B3 : sn q a3 = b3.

    Local Lemma L2 : lv g0 a2 = true. Proof. rewrite <- EA2. apply W; auto. Qed.
    Local Lemma L3 : lv g0 a3 = true. Proof. rewrite <- EA3. apply W, L2; auto. Qed.
    Local Lemma EA1 : nx g0 a3 = a1. Proof. rewrite <- EA3, <- EA2. apply (tm_three T L1). Qed.
    Local Lemma PA1 : pv g0 a1 = a3. Proof. rewrite <- EA1. apply (wf_pvnx W), L3. Qed.
    Local Lemma PA2 : pv g0 a2 = a1. Proof. rewrite <- EA2. apply (wf_pvnx W), L1. Qed.
    Local Lemma PA3 : pv g0 a3 = a2. Proof. rewrite <- EA3. apply (wf_pvnx W), L2. Qed.
    Local Lemma FA2 : F0 a2 = f. Proof. rewrite <- EA2, (F0_nx W L1). auto. Qed.
    Local Lemma FA3 : F0 a3 = f. Proof. rewrite <- EA3, (F0_nx W L2). apply FA2. Qed.
    Local Lemma NA12 : a1 <> a2. Proof. intros E. apply (tm_three T L1). congruence. Qed.
    Local Lemma NA23 : a2 <> a3. Proof. intros E. apply (tm_three T L2). congruence. Qed.
    Local Lemma NA13 : a1 <> a3. Proof. intros E. apply (tm_three T L3). rewrite EA1; auto. Qed.
    Local Lemma cases a : lv g0 a = true -> (a = a1 \/ a = a2 \/ a = a3) \/ (a <> a1 /\ a <> a2 /\ a <> a3 /\ F0 a <> f).
    Proof.
      intros La. destruct (Nat.eq_dec (F0 a) f) as [E|N].
      - rewrite <- FA in E. symmetry in E. apply (same_face W T L1 La) in E. rewrite EA2, PA1 in E. tauto.
      - right. repeat split; auto; intros ->; apply N; auto using FA2, FA3.
    Qed.

    (** the state is as required for [finish_ok] *)
    Lemma ready : NoDup [a1; a2; a3; b1; b2; b3] /\
      (forall j, In j [a1; a2; a3; b1; b2; b3] -> lv g j = true /\ fc g j = Some f) /\
      (nx g a1 = b1 /\ nx g b1 = a2 /\ nx g a2 = b2 /\ nx g b2 = a3 /\ nx g a3 = b3 /\ nx g b3 = a1) /\
      (pv g a1 = b3 /\ pv g b1 = a1 /\ pv g a2 = b1 /\ pv g b2 = a2 /\ pv g a3 = b2 /\ pv g b3 = a3) /\
      (lvv g (og g b1) = true /\ lvv g (og g b2) = true /\ lvv g (og g b3) = true).
    Proof.
      pose proof L2 as L2. pose proof L3 as L3. pose proof EA1 as EA1. pose proof PA1 as PA1. pose proof PA2 as PA2. pose proof PA3 as PA3.
      pose proof NA12 as NA12. pose proof NA13 as NA13. pose proof NA23 as NA23.
      assert (N1 : pre q a1 = false) by (unfold pre; rewrite FA; auto).
      assert (N2 : pre q a2 = false) by (unfold pre; rewrite FA2; auto).
      assert (N3 : pre q a3 = false) by (unfold pre; rewrite FA3; auto).
      pose proof (dO q L1) as O1. pose proof (dO q L2) as O2. pose proof (dO q L3) as O3.
      pose proof (dS L1 S1) as D1. pose proof (dS L2 S2) as D2. pose proof (dS L3 S3) as D3.
      assert (X : forall a b, dom q tO a = true -> dom q tS b = true -> a <> sn q b).
      { intros a b A B E. apply (@i_inj _ _ _ _ _ _ _ I tO a tS b) in E; auto. destruct E. discriminate. }
      assert (Y : forall a b, dom q tS a = true -> dom q tS b = true -> a <> b -> sn q a <> sn q b).
      { intros a b A B N E. apply (@i_inj _ _ _ _ _ _ _ I tS a tS b) in E; auto. tauto. }
      split; [|split; [|split; [|split]]].
      - pose proof (X _ _ O1 D1). pose proof (X _ _ O1 D2). pose proof (X _ _ O1 D3). pose proof (X _ _ O2 D1). pose proof (X _ _ O2 D2).
        pose proof (X _ _ O2 D3). pose proof (X _ _ O3 D1). pose proof (X _ _ O3 D2). pose proof (X _ _ O3 D3).
        pose proof (Y _ _ D1 D2 NA12). pose proof (Y _ _ D1 D3 NA13). pose proof (Y _ _ D2 D3 NA23).
        rewrite B1, B2, B3 in *. repeat constructor; cbn; intuition.
      - assert (KO : forall a, lv g0 a = true -> F0 a = f -> lv g a = true /\ fc g a = Some f).
        { intros a La Fa. pose proof (dO q La) as D. split; [apply (dom_live I D)|]. pose proof (i_fc I D) as Q. cbn -[SubdivInv.pre] in Q.
          unfold pre in Q. rewrite Fa, NP in Q. auto. }
        assert (KS : forall a, lv g0 a = true -> F0 a = f -> sp q a = true -> lv g (sn q a) = true /\ fc g (sn q a) = Some f).
        { intros a La Fa Sa. pose proof (dS La Sa) as D. split; [apply (dom_live I D)|]. pose proof (i_fc I D) as Q. cbn -[SubdivInv.pre] in Q.
          unfold pre in Q. rewrite Fa, NP in Q. auto. }
        intros j [<-|[<-|[<-|[<-|[<-|[<-|[]]]]]]]; auto using FA2, FA3; rewrite <- ?B1, <- ?B2, <- ?B3; auto using FA2, FA3.
      - pose proof (i_nx I O1) as Q1. pose proof (i_nx I O2) as Q2. pose proof (i_nx I O3) as Q3.
        pose proof (i_nx I D1) as R1. pose proof (i_nx I D2) as R2. pose proof (i_nx I D3) as R3.
        cbn -[SubdivInv.pre] in *. rewrite ?N1, ?N2, ?N3, ?S1, ?S2, ?S3, ?B1, ?B2, ?B3, ?EA1, ?EA2, ?EA3 in *. auto 10.
      - pose proof (i_pv I O1) as Q1. pose proof (i_pv I O2) as Q2. pose proof (i_pv I O3) as Q3.
        pose proof (i_pv I D1) as R1. pose proof (i_pv I D2) as R2. pose proof (i_pv I D3) as R3.
        cbn -[SubdivInv.pre] in *. rewrite ?N1, ?N2, ?N3, ?PA1, ?PA2, ?PA3, ?S1, ?S2, ?S3, ?B1, ?B2, ?B3 in *. auto 10.
      - pose proof (i_og I D1) as R1. pose proof (i_og I D2) as R2. pose proof (i_og I D3) as R3. cbn in *.
        rewrite ?B1, ?B2, ?B3 in *. rewrite R1, R2, R3, !(i_lvv I). repeat split; right; eauto.
    Qed.

    Hypothesis ND : NoDup [u1; u2; u3; w1; w2; w3].
    Hypothesis DN : forall j, In j [u1; u2; u3; w1; w2; w3] -> lv g j = false.
    Hypothesis NK : NoDup [h1; h2; h3; h4].
    Hypothesis DK : forall k, In k [h1; h2; h3; h4] -> lvf g k = true -> k = f.
    Let q' := q_cut q P f.

    Local Lemma pre_cut a : pre q' a = if F0 a =? f then true else pre q a.
    Proof. reflexivity. Qed.
    Local Lemma dom_cut t a : dom q' t a = true <->
      dom q t a = true \/ ((t = tC \/ t = tD) /\ (a = a1 \/ a = a2 \/ a = a3)).
    Proof.
      unfold dom. destruct (lv g0 a) eqn:La.
      - cbn [andb]. assert (X : pre q' a = true <-> pre q a = true \/ (a = a1 \/ a = a2 \/ a = a3)).
        { rewrite pre_cut. destruct (cases La) as [C|(A & B & C & N)].
          - assert (E : F0 a = f) by (destruct C as [-> | [-> | ->]]; auto using FA2, FA3). rewrite E, Nat.eqb_refl. tauto.
          - rewrite (proj2 (Nat.eqb_neq _ _) N). tauto. }
        destruct t; rewrite ?X; intuition; discriminate.
      - cbn. split; [discriminate|]. intros [?|[_ [-> | [-> | ->]]]]; [discriminate| | |]; pose proof L1; pose proof L2; pose proof L3; congruence.
    Qed.
    Local Lemma cut_old t a : dom q t a = true -> nm q' t a = nm q t a.
    Proof.
      intros D. pose proof (dom_lv0 D) as La. destruct t; cbn -[Nat.eqb]; auto.
      - assert (pre q a = true) by (unfold dom in D; apply andb_prop in D; tauto).
        assert (N : F0 a <> f) by (intros E; unfold pre in H; congruence). destruct (cases La) as [[-> | [-> | ->]]|(? & ? & ? & _)].
        + tauto. + destruct (N FA2). + destruct (N FA3). + ev. auto.
      - assert (pre q a = true) by (unfold dom in D; apply andb_prop in D; tauto).
        assert (N : F0 a <> f) by (intros E; unfold pre in H; congruence). destruct (cases La) as [[-> | [-> | ->]]|(? & ? & ? & _)].
        + tauto. + destruct (N FA2). + destruct (N FA3). + ev. auto.
    Qed.
    (** names of the parts *)
    Local Lemma names : (nm q' tC a1 = u1 /\ nm q' tC a2 = u2 /\ nm q' tC a3 = u3) /\ (nm q' tD a1 = w1 /\ nm q' tD a2 = w2 /\ nm q' tD a3 = w3).
    Proof. pose proof NA12. pose proof NA13. pose proof NA23. cbn -[Nat.eqb]. repeat split; ev; auto. Qed.

    Local Lemma cut_inj t a t' b : dom q' t a = true -> dom q' t' b = true -> nm q' t a = nm q' t' b -> t = t' /\ a = b.
    Proof.
      destruct names as ((U1 & U2 & U3) & (W1 & W2 & W3)).
      assert (NEW : forall t a, (t = tC \/ t = tD) /\ (a = a1 \/ a = a2 \/ a = a3) -> lv g (nm q' t a) = false).
      { intros t0 a0 [[-> | ->] [-> | [-> | ->]]]; rewrite ?U1, ?U2, ?U3, ?W1, ?W2, ?W3; apply DN; cbn; auto 10. }
      intros A B. apply dom_cut in A as [A|A]; apply dom_cut in B as [B|B].
      - rewrite !cut_old by auto. apply I; auto.
      - rewrite cut_old by auto. intros E. apply NEW in B. pose proof (dom_live I A). congruence.
      - rewrite (cut_old B). intros E. apply NEW in A. pose proof (dom_live I B). congruence.
      - clear DN NK DK NEW. pose proof ND as ND'. nodup_ne ND'.
        destruct A as [[-> | ->] [-> | [-> | ->]]], B as [[-> | ->] [-> | [-> | ->]]]; rewrite ?U1, ?U2, ?U3, ?W1, ?W2, ?W3; intros; try (split; reflexivity); exfalso; congruence.
    Qed.

    (** the other half-edges are none of the parts *)
    Local Lemma other t a : dom q' t a = true -> a <> a1 -> a <> a2 -> a <> a3 -> dom q t a = true /\ nm q' t a = nm q t a /\
      (nm q t a <> a1 /\ nm q t a <> a2 /\ nm q t a <> a3) /\ (nm q t a <> b1 /\ nm q t a <> b2 /\ nm q t a <> b3) /\
      (nm q t a <> u1 /\ nm q t a <> u2 /\ nm q t a <> u3) /\ (nm q t a <> w1 /\ nm q t a <> w2 /\ nm q t a <> w3).
    Proof.
      intros D N1 N2 N3. apply dom_cut in D as [D | [_ D]]; [|tauto]. split; auto. split; [apply cut_old; auto 10|].
      pose proof L2 as L2. pose proof L3 as L3.
      assert (X : forall t' b, dom q t' b = true -> a <> b -> nm q t a <> nm q t' b).
      { intros t' b B N E. apply (i_inj I) in E; auto. tauto. }
      assert (Y : forall j, In j [u1; u2; u3; w1; w2; w3] -> nm q t a <> j).
      { intros j J E. apply DN in J. pose proof (dom_live I D). congruence. }
      rewrite <- B1, <- B2, <- B3.
      split; [repeat split|split; [repeat split|split; repeat split]]; try (apply Y; cbn; auto 10; fail).
      - apply (X tO); auto. apply dO; auto. - apply (X tO); auto. apply dO; auto. - apply (X tO); auto. apply dO; auto.
      - apply (X tS); auto. apply dS; auto. - apply (X tS); auto. apply dS; auto. - apply (X tS); auto. apply dS; auto.
    Qed.
    Local Lemma other_face a : lv g0 a = true -> a <> a1 -> a <> a2 -> a <> a3 -> F0 a <> f /\
      (nx g0 a <> a1 /\ nx g0 a <> a2 /\ nx g0 a <> a3) /\ (pv g0 a <> a1 /\ pv g0 a <> a2 /\ pv g0 a <> a3).
    Proof.
      intros La N1 N2 N3. destruct (cases La) as [?|(_ & _ & _ & N)]; [tauto|]. split; auto.
      pose proof (F0_nx W La). pose proof (F0_pv W La). pose proof FA2. pose proof FA3.
      repeat split; intros E; rewrite E in *; congruence.
    Qed.

    Lemma inv_cut dE cu y : fp g0 f = Some (cu, y) -> Inv q' (finish_graph P f y dE g).
    Proof.
      intros FP1. destruct ready as (NA & _ & (X1 & X2 & X3 & X4 & X5 & X6) & (Y1 & Y2 & Y3 & Y4 & Y5 & Y6) & _).
      pose proof cut_inj as INJ. pose proof other as OTH. pose proof other_face as OTF. pose proof cases as CS.
      pose proof dom_cut as DC. pose proof cut_old as CO. destruct names as ((U1 & U2 & U3) & (W1 & W2 & W3)).
      pose proof FA2 as FA2. pose proof FA3 as FA3. pose proof PA1 as PA1. pose proof PA2 as PA2. pose proof PA3 as PA3.
      pose proof L2 as L2. pose proof L3 as L3. pose proof EA1 as EA1.
      assert (DO : forall a, In a [a1; a2; a3; b1; b2; b3] -> lv g a = true).
      { intros a A. apply ready in A. tauto. }
      assert (NE : forall i j, In i [a1; a2; a3; b1; b2; b3] -> In j [u1; u2; u3; w1; w2; w3] -> i <> j).
      { intros i j A B E. apply DO in A. apply DN in B. congruence. }
      assert (a1 <> u1) by (apply NE; cbn; auto 10). assert (a1 <> u2) by (apply NE; cbn; auto 10). assert (a1 <> u3) by (apply NE; cbn; auto 10). assert (a1 <> w1) by (apply NE; cbn; auto 10). assert (a1 <> w2) by (apply NE; cbn; auto 10). assert (a1 <> w3) by (apply NE; cbn; auto 10).
      assert (a2 <> u1) by (apply NE; cbn; auto 10). assert (a2 <> u2) by (apply NE; cbn; auto 10). assert (a2 <> u3) by (apply NE; cbn; auto 10). assert (a2 <> w1) by (apply NE; cbn; auto 10). assert (a2 <> w2) by (apply NE; cbn; auto 10). assert (a2 <> w3) by (apply NE; cbn; auto 10).
      assert (a3 <> u1) by (apply NE; cbn; auto 10). assert (a3 <> u2) by (apply NE; cbn; auto 10). assert (a3 <> u3) by (apply NE; cbn; auto 10). assert (a3 <> w1) by (apply NE; cbn; auto 10). assert (a3 <> w2) by (apply NE; cbn; auto 10). assert (a3 <> w3) by (apply NE; cbn; auto 10).
      assert (b1 <> u1) by (apply NE; cbn; auto 10). assert (b1 <> u2) by (apply NE; cbn; auto 10). assert (b1 <> u3) by (apply NE; cbn; auto 10). assert (b1 <> w1) by (apply NE; cbn; auto 10). assert (b1 <> w2) by (apply NE; cbn; auto 10). assert (b1 <> w3) by (apply NE; cbn; auto 10).
      assert (b2 <> u1) by (apply NE; cbn; auto 10). assert (b2 <> u2) by (apply NE; cbn; auto 10). assert (b2 <> u3) by (apply NE; cbn; auto 10). assert (b2 <> w1) by (apply NE; cbn; auto 10). assert (b2 <> w2) by (apply NE; cbn; auto 10). assert (b2 <> w3) by (apply NE; cbn; auto 10).
      assert (b3 <> u1) by (apply NE; cbn; auto 10). assert (b3 <> u2) by (apply NE; cbn; auto 10). assert (b3 <> u3) by (apply NE; cbn; auto 10). assert (b3 <> w1) by (apply NE; cbn; auto 10). assert (b3 <> w2) by (apply NE; cbn; auto 10). assert (b3 <> w3) by (apply NE; cbn; auto 10).
      pose proof ND as ND'. pose proof NK as NK'. nodup_ne NA. nodup_ne ND'. nodup_ne NK'.
      assert (G1 : lv g0 a1 = true) by auto.
      assert (HF : forall h, In h [h1; h2; h3; h4] -> forall k, lvf g k = true -> k <> f -> k <> h).
      { intros h Hh k Lk Nk ->. apply Nk, DK; auto. }
      assert (HK : forall e, lv g0 e = true -> pre q e = true -> lvf g (ka q e) = true /\ ka q e <> f).
      { intros e Le Pe. split; [apply (i_lvf I); right; left; eauto|]. intros E. apply (i_ko I) in Pe; auto; rewrite E in *; congruence. }
      assert (HZ : forall k, lvf g0 k = true -> pr q k = true -> lvf g (ze q k) = true /\ ze q k <> f).
      { intros e Le Pe. split; [apply (i_lvf I); right; right; eauto|]. intros E. apply (i_zo I) in Pe; auto; rewrite E in *; congruence. }
      assert (KH : forall e, lv g0 e = true -> pre q e = true -> ka q e <> h1 /\ ka q e <> h2 /\ ka q e <> h3 /\ ka q e <> h4).
      { intros e Le Pe. destruct (HK e Le Pe). repeat split; apply HF; cbn; auto. }
      assert (ZH : forall k, lvf g0 k = true -> pr q k = true -> ze q k <> h1 /\ ze q k <> h2 /\ ze q k <> h3 /\ ze q k <> h4).
      { intros e Le Pe. destruct (HZ e Le Pe). repeat split; apply HF; cbn; auto. }
      assert (OH : forall k, lvf g0 k = true -> pr q k = false -> k <> f -> k <> h1 /\ k <> h2 /\ k <> h3 /\ k <> h4).
      { intros k Lk Pk Nk. assert (lvf g k = true) by (apply (i_lvf I); auto). repeat split; apply HF; cbn; auto. }
      assert (NF : forall e, pre q e = true -> F0 e <> f) by (intros e Pe E; unfold pre in Pe; congruence).
      assert (NA : forall e, lv g0 e = true -> F0 e <> f -> e <> a1 /\ e <> a2 /\ e <> a3).
      { intros e Le N. repeat split; intros ->; auto. }
      assert (ET : tw g a1 = TW g0 q tO a1 /\ tw g a2 = TW g0 q tO a2 /\ tw g a3 = TW g0 q tO a3).
      { split; [|split]; [apply (@i_tw _ _ _ _ _ _ _ I tO a1)|apply (@i_tw _ _ _ _ _ _ _ I tO a2)|apply (@i_tw _ _ _ _ _ _ _ I tO a3)]; apply dO; auto. }
      destruct ET as (ET1 & ET2 & ET3). cbn in ET1, ET2, ET3.
      assert (ES : tw g b1 = tw g0 a1 /\ tw g b2 = tw g0 a2 /\ tw g b3 = tw g0 a3).
      { rewrite <- B1, <- B2, <- B3.
        split; [|split]; [apply (@i_tw _ _ _ _ _ _ _ I tS a1)|apply (@i_tw _ _ _ _ _ _ _ I tS a2)|apply (@i_tw _ _ _ _ _ _ _ I tS a3)]; apply dS; auto. }
      destruct ES as (ES1 & ES2 & ES3).
      assert (EO : og g a1 = og g0 a1 /\ og g a2 = og g0 a2 /\ og g a3 = og g0 a3).
      { split; [|split]; [apply (@i_og _ _ _ _ _ _ _ I tO a1)|apply (@i_og _ _ _ _ _ _ _ I tO a2)|apply (@i_og _ _ _ _ _ _ _ I tO a3)]; apply dO; auto. }
      destruct EO as (EO1 & EO2 & EO3).
      assert (EM : og g b1 = mu q a1 /\ og g b2 = mu q a2 /\ og g b3 = mu q a3).
      { rewrite <- B1, <- B2, <- B3.
        split; [|split]; [apply (@i_og _ _ _ _ _ _ _ I tS a1)|apply (@i_og _ _ _ _ _ _ _ I tS a2)|apply (@i_og _ _ _ _ _ _ _ I tS a3)]; apply dS; auto. }
      destruct EM as (EM1 & EM2 & EM3).
      Ltac sub U W t FA FA2 FA3 B1 B2 B3 EA1 EA2 EA3 PA1 PA2 PA3 S1 S2 S3 ET1 ET2 ET3 :=
        destruct t; rewrite ?U, ?W; cbn -[Nat.eqb SubdivInv.pre];
          rewrite ?pre_cut, ?FA, ?FA2, ?FA3, ?PA1, ?PA2, ?PA3, ?S1, ?S2, ?S3, ?B1, ?B2, ?B3, ?EA1, ?EA2, ?EA3;
          unfold fu; ev; auto;
          rewrite ?ET1, ?ET2, ?ET3, ?S1, ?S2, ?S3; auto.
      split.
      - exact INJ.
      - intros j. change (lv (finish_graph P f y dE g) j) with (asc [(u1, true); (u2, true); (u3, true); (w1, true); (w2, true); (w3, true)] (lv g) j).
        split.
        + intros Lj. cbn -[Nat.eqb] in Lj.
          destruct (Nat.eqb_spec j u1) as [E|]; [exists tC, a1; split; [apply DC; auto 10|rewrite U1; exact E]|].
          destruct (Nat.eqb_spec j u2) as [E|]; [exists tC, a2; split; [apply DC; auto 10|rewrite U2; exact E]|].
          destruct (Nat.eqb_spec j u3) as [E|]; [exists tC, a3; split; [apply DC; auto 10|rewrite U3; exact E]|].
          destruct (Nat.eqb_spec j w1) as [E|]; [exists tD, a1; split; [apply DC; auto 10|rewrite W1; exact E]|].
          destruct (Nat.eqb_spec j w2) as [E|]; [exists tD, a2; split; [apply DC; auto 10|rewrite W2; exact E]|].
          destruct (Nat.eqb_spec j w3) as [E|]; [exists tD, a3; split; [apply DC; auto 10|rewrite W3; exact E]|].
          apply (i_lv I) in Lj as (t & e & D & E). exists t, e. split; [apply DC; auto|]. rewrite CO; auto.
        + intros (t & e & D & ->). pose proof D as D'. apply DC in D as [D|[[-> | ->] [-> | [-> | ->]]]].
          * rewrite CO; auto. pose proof (dom_live I D) as Lj. cbn -[Nat.eqb].
            repeat match goal with |- context [?a =? ?b] => destruct (a =? b); auto end.
          * rewrite U1. cbn -[Nat.eqb]. ev. auto.
          * rewrite U2. cbn -[Nat.eqb]. ev. auto.
          * rewrite U3. cbn -[Nat.eqb]. ev. auto.
          * rewrite W1. cbn -[Nat.eqb]. ev. auto.
          * rewrite W2. cbn -[Nat.eqb]. ev. auto.
          * rewrite W3. cbn -[Nat.eqb]. ev. auto.
      - intros e Le Pe. change (sp q e = true). destruct (CS e Le) as [[-> | [-> | ->]]|(A & B & C & N)]; auto.
        rewrite pre_cut in Pe. destruct (Nat.eqb_spec (F0 e) f); [tauto|]. apply I; auto.
      - intros t e D. pose proof (dom_lv0 D) as Le. destruct (CS e Le) as [[-> | [-> | ->]]|(A & B & C & N)].
        + sub U1 W1 t FA FA2 FA3 B1 B2 B3 EA1 EA2 EA3 PA1 PA2 PA3 S1 S2 S3 ET1 ET2 ET3.
        + sub U2 W2 t FA FA2 FA3 B1 B2 B3 EA1 EA2 EA3 PA1 PA2 PA3 S1 S2 S3 ET1 ET2 ET3.
        + sub U3 W3 t FA FA2 FA3 B1 B2 B3 EA1 EA2 EA3 PA1 PA2 PA3 S1 S2 S3 ET1 ET2 ET3.
        + destruct (OTH t e D A B C) as (D0 & -> & (? & ? & ?) & (? & ? & ?) & (? & ? & ?) & (? & ? & ?)).
          destruct (OTF e Le A B C) as (_ & (? & ? & ?) & (? & ? & ?)).
          cbn -[Nat.eqb]. ev. rewrite (i_nx I D0). destruct t; cbn -[Nat.eqb SubdivInv.pre]; rewrite ?pre_cut; unfold fu; ev; auto.
      - intros t e D. pose proof (dom_lv0 D) as Le. destruct (CS e Le) as [[-> | [-> | ->]]|(A & B & C & N)].
        + sub U1 W1 t FA FA2 FA3 B1 B2 B3 EA1 EA2 EA3 PA1 PA2 PA3 S1 S2 S3 ET1 ET2 ET3.
        + sub U2 W2 t FA FA2 FA3 B1 B2 B3 EA1 EA2 EA3 PA1 PA2 PA3 S1 S2 S3 ET1 ET2 ET3.
        + sub U3 W3 t FA FA2 FA3 B1 B2 B3 EA1 EA2 EA3 PA1 PA2 PA3 S1 S2 S3 ET1 ET2 ET3.
        + destruct (OTH t e D A B C) as (D0 & -> & (? & ? & ?) & (? & ? & ?) & (? & ? & ?) & (? & ? & ?)).
          destruct (OTF e Le A B C) as (_ & (? & ? & ?) & (? & ? & ?)).
          cbn -[Nat.eqb]. ev. rewrite (i_pv I D0). destruct t; cbn -[Nat.eqb SubdivInv.pre]; rewrite ?pre_cut; unfold fu; ev; auto.
      - intros t e D. pose proof (dom_lv0 D) as Le. destruct (CS e Le) as [[-> | [-> | ->]]|(A & B & C & N)].
        + sub U1 W1 t FA FA2 FA3 B1 B2 B3 EA1 EA2 EA3 PA1 PA2 PA3 S1 S2 S3 ET1 ET2 ET3.
        + sub U2 W2 t FA FA2 FA3 B1 B2 B3 EA1 EA2 EA3 PA1 PA2 PA3 S1 S2 S3 ET1 ET2 ET3.
        + sub U3 W3 t FA FA2 FA3 B1 B2 B3 EA1 EA2 EA3 PA1 PA2 PA3 S1 S2 S3 ET1 ET2 ET3.
        + destruct (OTH t e D A B C) as (D0 & -> & (? & ? & ?) & (? & ? & ?) & (? & ? & ?) & (? & ? & ?)).
          destruct (OTF e Le A B C) as (_ & (? & ? & ?) & (? & ? & ?)).
          cbn -[Nat.eqb]. ev. rewrite (i_tw I D0). destruct t; cbn -[Nat.eqb SubdivInv.pre]; rewrite ?pre_cut; unfold fu; ev; auto.
      - intros t e D. pose proof (dom_lv0 D) as Le. destruct (CS e Le) as [[-> | [-> | ->]]|(A & B & C & N)].
        + sub U1 W1 t FA FA2 FA3 B1 B2 B3 EA1 EA2 EA3 PA1 PA2 PA3 S1 S2 S3 ET1 ET2 ET3.
        + sub U2 W2 t FA FA2 FA3 B1 B2 B3 EA1 EA2 EA3 PA1 PA2 PA3 S1 S2 S3 ET1 ET2 ET3.
        + sub U3 W3 t FA FA2 FA3 B1 B2 B3 EA1 EA2 EA3 PA1 PA2 PA3 S1 S2 S3 ET1 ET2 ET3.
        + destruct (OTH t e D A B C) as (D0 & -> & (? & ? & ?) & (? & ? & ?) & (? & ? & ?) & (? & ? & ?)).
          destruct (OTF e Le A B C) as (_ & (? & ? & ?) & (? & ? & ?)).
          cbn -[Nat.eqb]. ev. rewrite (i_og I D0). destruct t; cbn -[Nat.eqb SubdivInv.pre]; rewrite ?pre_cut; unfold fu; ev; auto.
      - intros t e D. pose proof (dom_lv0 D) as Le. destruct (CS e Le) as [[-> | [-> | ->]]|(A & B & C & N)].
        + sub U1 W1 t FA FA2 FA3 B1 B2 B3 EA1 EA2 EA3 PA1 PA2 PA3 S1 S2 S3 ET1 ET2 ET3.
        + sub U2 W2 t FA FA2 FA3 B1 B2 B3 EA1 EA2 EA3 PA1 PA2 PA3 S1 S2 S3 ET1 ET2 ET3.
        + sub U3 W3 t FA FA2 FA3 B1 B2 B3 EA1 EA2 EA3 PA1 PA2 PA3 S1 S2 S3 ET1 ET2 ET3.
        + destruct (OTH t e D A B C) as (D0 & -> & (? & ? & ?) & (? & ? & ?) & (? & ? & ?) & (? & ? & ?)).
          destruct (OTF e Le A B C) as (_ & (? & ? & ?) & (? & ? & ?)).
          cbn -[Nat.eqb]. ev. rewrite (i_fc I D0). destruct t; cbn -[Nat.eqb SubdivInv.pre]; rewrite ?pre_cut; unfold fu; ev; auto.
      - intros e. apply (i_mu1 I).
      - intros e e'. apply (i_mu2 I).
      - intros e. apply (i_mu3 I).
      - intros v. apply (i_lvv I).
      - intros v. apply (i_old I).
      - intros e. apply (i_new I).
      - (* live faces *)
        intros k. cbn -[Nat.eqb SubdivInv.pre]. unfold fu. split.
        + intros Lk.
          destruct (Nat.eqb_spec k h1) as [E|?]; [right; left; exists a1; rewrite pre_cut, FA; ev; auto 10|].
          destruct (Nat.eqb_spec k h2) as [E|?]; [right; left; exists a2; rewrite pre_cut, FA2; ev; auto 10|].
          destruct (Nat.eqb_spec k h3) as [E|?]; [right; left; exists a3; rewrite pre_cut, FA3; ev; auto 10|].
          destruct (Nat.eqb_spec k h4) as [E|?]; [right; right; exists f; ev; auto 10|].
          destruct (Nat.eqb_spec k f) as [_|Nk]; [discriminate|]. apply (i_lvf I) in Lk as [?|[(e & Le & Pe & E)|(k' & Lk' & Pk' & E)]]; auto.
          * right; left. exists e. destruct (NA e Le (NF e Pe)) as (? & ? & ?). rewrite pre_cut, (proj2 (Nat.eqb_neq _ _) (NF e Pe)). ev. auto.
          * right; right. exists k'. assert (k' <> f) by congruence. ev. auto.
        + intros [[Lk Pk]|[(e & Le & Pe & ->)|(k' & Lk' & Pk' & ->)]].
          * destruct (Nat.eqb_spec k f) as [_|Nk]; [discriminate|]. destruct (OH k Lk Pk Nk) as (? & ? & ? & ?). ev. apply (i_lvf I). auto.
          * rewrite pre_cut in Pe. destruct (CS e Le) as [[-> | [-> | ->]]|(A & B & C & N)]; ev; auto.
            rewrite (proj2 (Nat.eqb_neq _ _) N) in Pe. destruct (KH e Le Pe) as (? & ? & ? & ?). destruct (HK e Le Pe). ev. auto.
          * destruct (Nat.eqb_spec k' f) as [->|N]; ev; auto. destruct (ZH k' Lk' Pk') as (? & ? & ? & ?). destruct (HZ k' Lk' Pk'). ev. auto.
      - intros k Lk. cbn -[Nat.eqb]. unfold fu. destruct (Nat.eqb_spec k f) as [->|Nk]; [discriminate|]. intros Pk.
        destruct (OH k Lk Pk Nk) as (? & ? & ? & ?). ev. apply I; auto.
      - intros e Le Pe. cbn -[Nat.eqb]. rewrite pre_cut in Pe. destruct (CS e Le) as [[-> | [-> | ->]]|(A & B & C & N)]; ev.
        + rewrite FA. eauto. + rewrite FA2. eauto. + rewrite FA3. eauto.
        + rewrite (proj2 (Nat.eqb_neq _ _) N) in Pe. destruct (KH e Le Pe) as (? & ? & ? & ?). destruct (HK e Le Pe) as [? HKf]. unfold fu. ev. apply I; auto.
      - intros k Lk. cbn -[Nat.eqb]. unfold fu. destruct (Nat.eqb_spec k f) as [->|Nk]; intros Pk; ev.
        + split; [|eauto]. exists a1. ev. auto.
        + destruct (ZH k Lk Pk) as (? & ? & ? & ?). destruct (HZ k Lk Pk) as [? HKf]. ev. destruct (i_fz I Lk Pk) as [(e & Le & Fe & Q) ?]. split; auto.
          exists e. destruct (NA e Le) as (? & ? & ?); [congruence|]. ev. auto.
      - intros e e' Le Le' Pe Pe'. rewrite !pre_cut in *. cbn -[Nat.eqb].
        destruct (CS e Le) as [[-> | [-> | ->]]|(A & B & C & N)], (CS e' Le') as [[-> | [-> | ->]]|(A' & B' & C' & N')]; ev; auto; try (intros; exfalso; congruence).
        1,2,3: rewrite (proj2 (Nat.eqb_neq _ _) N') in Pe'; destruct (KH e' Le' Pe') as (? & ? & ? & ?); intros; exfalso; congruence.
        1,2,3: rewrite (proj2 (Nat.eqb_neq _ _) N) in Pe; destruct (KH e Le Pe) as (? & ? & ? & ?); intros; exfalso; congruence.
        rewrite (proj2 (Nat.eqb_neq _ _) N') in Pe'. rewrite (proj2 (Nat.eqb_neq _ _) N) in Pe. apply I; auto.
      - intros k k' Lk Lk'. cbn -[Nat.eqb]. unfold fu. destruct (Nat.eqb_spec k f) as [->|Nk], (Nat.eqb_spec k' f) as [->|Nk']; auto; intros Pk Pk'.
        + destruct (ZH k' Lk' Pk') as (? & ? & ? & ?). intros; exfalso; congruence.
        + destruct (ZH k Lk Pk) as (? & ? & ? & ?). intros; exfalso; congruence.
        + apply I; auto.
      - intros e k Le Lk Pe. rewrite pre_cut in Pe. cbn -[Nat.eqb]. unfold fu.
        destruct (CS e Le) as [[-> | [-> | ->]]|(A & B & C & N)].
        4: rewrite (proj2 (Nat.eqb_neq _ _) N) in Pe; destruct (KH e Le Pe) as (? & ? & ? & ?).
        all: destruct (Nat.eqb_spec k f) as [->|Nk]; intros Pk; ev; auto; try (destruct (ZH k Lk Pk) as (? & ? & ? & ?); auto; fail).
        apply I; auto.
      - assert (HH : forall h, In h [h1; h2; h3; h4] -> lvf g0 h = true -> fu (pr q) f true h = true).
        { intros h Hh Lh. unfold fu. destruct (Nat.eqb_spec h f); auto. destruct (pr q h) eqn:Ph; auto. exfalso. apply n, DK; auto. apply (i_lvf I). auto. }
        intros e Le Pe. rewrite pre_cut in Pe. cbn -[Nat.eqb]. destruct (CS e Le) as [[-> | [-> | ->]]|(A & B & C & N)]; ev; try (apply HH; cbn; auto; fail).
        rewrite (proj2 (Nat.eqb_neq _ _) N) in Pe. unfold fu. destruct (Nat.eqb_spec (ka q e) f); auto. apply I; auto.
      - assert (HH : forall h, In h [h1; h2; h3; h4] -> lvf g0 h = true -> fu (pr q) f true h = true).
        { intros h Hh Lh. unfold fu. destruct (Nat.eqb_spec h f); auto. destruct (pr q h) eqn:Ph; auto. exfalso. apply n, DK; auto. apply (i_lvf I). auto. }
        intros k Lk. cbn -[Nat.eqb fu]. unfold fu at 1 2 4. destruct (Nat.eqb_spec k f) as [->|Nk]; intros Pk.
        + apply HH. cbn; auto.
        + intros Lz. unfold fu. destruct (Nat.eqb_spec (ze q k) f); auto. apply I; auto.
    Qed.
  End At.
End Cut.
