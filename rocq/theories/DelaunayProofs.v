(** C36: the Delaunay monotone triangulator. *)
From Coq Require Import List Arith Bool Lia Permutation.
From Verif Require Import Base DVecFacts Mesh Tess Buffer Monotone TriSpec TriFacts BufferSpec BufferProofs MinWeightSpec MonoSpec TessProofs.
From Verif Require Import LinearProofs FlipProofs.
Import ListNotations.
Set Implicit Arguments.
Unset Strict Implicit.
Implicit Types (T U R C W : list tr) (t u : tr).

(** ** association lists over pairs *)
Lemma pair_eqb_eq x y : pair_eqb x y = true <-> x = y.
Proof.
  destruct x as [a b], y as [c d]. unfold pair_eqb. cbn. rewrite andb_true_iff, !Nat.eqb_eq. split; [intros [-> ->]; auto|intros E; injection E; auto].
Qed.
Lemma pair_eqb_ne x y : x <> y -> pair_eqb x y = false.
Proof. intros H. destruct (pair_eqb x y) eqn:E; auto. apply pair_eqb_eq in E. congruence. Qed.
Lemma get_remove m k : forall k', p_get (p_remove m k) k' = if pair_eqb k' k then None else p_get m k'.
Proof.
  intros k'. induction m as [|[q v] m IH]; [cbn; destruct (pair_eqb k' k); auto|].
  unfold p_remove in *. cbn [filter fst p_get]. destruct (pair_eqb k q) eqn:E; cbn [negb p_get].
  - apply pair_eqb_eq in E as <-. rewrite IH. destruct (pair_eqb k' k); auto.
  - rewrite IH. destruct (pair_eqb k' q) eqn:F; auto. apply pair_eqb_eq in F as ->.
    rewrite pair_eqb_ne; auto. intros ->. rewrite (proj2 (pair_eqb_eq k k)) in E; [discriminate|auto].
Qed.
Lemma get_insert m k v k' : p_get (p_insert m k v) k' = if pair_eqb k' k then Some v else p_get m k'.
Proof. unfold p_insert. cbn [p_get]. destruct (pair_eqb k' k) eqn:E; auto. rewrite get_remove, E. auto. Qed.
Lemma has_in s k : has s k = true <-> In k s.
Proof.
  unfold has. rewrite existsb_exists. split; [intros (x & I & E); apply pair_eqb_eq in E as ->; auto|].
  intros I. exists k. split; auto. apply pair_eqb_eq. auto.
Qed.

(** ** families of triangle lists that are closed under flips *)
Record region (n : nat) (F : list tr -> Prop) : Prop := mkRegion {
  r_teq : forall W W', F W -> teq W W' -> F W';
  r_flip : forall W x y z w W', F W -> teq W ((x, y, z) :: (x, w, y) :: W') -> F ((x, w, z) :: (w, y, z) :: W');
  r_dist : forall W t, F W -> In t W -> distinct3 t;
  r_bound : forall W t x, F W -> In t W -> corner x t -> x < n;
  r_once : forall W x y z w W', F W -> ~ teq W ((x, y, z) :: (x, y, w) :: W')
}.

Definition above (d : dir) (st p : list nat) (W : list tr) : Prop := exists C, chain st p C /\ teq C (Td d W).

Lemma Td_teq d W W' : teq W W' -> teq (Td d W) (Td d W').
Proof. destruct d; cbn; auto using teq_flip. Qed.
Lemma in_Td d W t : In t W -> exists u, In u (Td d W) /\ (distinct3 u -> distinct3 t) /\ (forall x, corner x t -> corner x u).
Proof.
  intros I. destruct d; cbn; [exists t; auto| |];
    (exists (flip_tri t); split; [apply in_map; auto|]; destruct t as [[a b] c]; cbn; intuition).
Qed.
Lemma teq_In W W' t : teq W W' -> In t W -> exists u, In u W' /\ rot3 t u.
Proof.
  intros Q I. apply in_split in I as (A & B & ->). destruct (teq_split Q eq_refl) as (B1 & u & B2 & -> & R1 & _).
  exists u. split; auto. apply in_or_app. right. left. auto.
Qed.
Lemma rot3_distinct t u : rot3 t u -> distinct3 t -> distinct3 u.
Proof. destruct t as [[a b] c]. cbn. intros [-> |[-> | ->]]; cbn; intuition. Qed.
Lemma rot3_corner t u x : rot3 t u -> corner x t -> corner x u.
Proof. destruct t as [[a b] c]. cbn. intros [-> |[-> | ->]]; cbn; intuition. Qed.

Lemma above_region n d st p : NoDup p -> Forall (fun x => x < n) p -> region n (above d st p).
Proof.
  intros N B. assert (DI : forall W t, above d st p W -> In t W -> distinct3 t).
  { intros W t (C & HC & Q) I. destruct (in_Td d I) as (u & Iu & D & _). apply D.
    destruct (teq_In (teq_sym Q) Iu) as (v & Iv & RO). apply rot3_sym in RO.
    eapply rot3_distinct; [exact RO|]. eapply chain_distinct; eauto. }
  constructor; auto.
  - intros W W' (C & HC & Q) E. exists C. split; auto. eapply teq_trans; [exact Q|apply Td_teq; auto].
  - intros W x y z w W' A E. pose proof A as (C & HC & Q).
    assert (NE : x <> y).
    { destruct (teq_in E) as (B1 & t & B2 & -> & RO & _). assert (D : distinct3 t) by (apply (DI _ t A), in_or_app; right; left; auto).
      apply rot3_sym in RO. pose proof (rot3_distinct RO D). cbn in *. tauto. }
    assert (Q2 : teq C (Td d ((x, y, z) :: (x, w, y) :: W'))) by (eapply teq_trans; [exact Q|apply Td_teq; auto]).
    destruct d; cbn [Td map flip_tri] in Q2.
    + destruct (chain_flip HC N NE Q2) as (C' & HC' & Q'). exists C'. split; auto.
    + destruct (@chain_flip _ _ _ HC N y x z w (map (@flip_tri nat) W')) as (C' & HC' & Q'); auto.
      { eapply teq_trans; [exact Q2|]. apply teq_cons2; [cbn; auto|cbn; auto|apply teq_refl]. }
      exists C'. split; auto. eapply teq_trans; [exact Q'|]. cbn [Td map flip_tri].
      eapply teq_trans; [apply teq_swap|]. apply teq_cons2; [cbn; auto|cbn; auto|apply teq_refl].
    + destruct (@chain_flip _ _ _ HC N y x z w (map (@flip_tri nat) W')) as (C' & HC' & Q'); auto.
      { eapply teq_trans; [exact Q2|]. apply teq_cons2; [cbn; auto|cbn; auto|apply teq_refl]. }
      exists C'. split; auto. eapply teq_trans; [exact Q'|]. cbn [Td map flip_tri].
      eapply teq_trans; [apply teq_swap|]. apply teq_cons2; [cbn; auto|cbn; auto|apply teq_refl].
  - intros W t x (C & HC & Q) I K. destruct (in_Td d I) as (u & Iu & _ & CO).
    destruct (teq_In (teq_sym Q) Iu) as (v & Iv & RO). rewrite Forall_forall in B. apply B.
    eapply chain_corners; [exact HC|exact Iv|]. eapply rot3_corner; eauto.
  - intros W x y z w W' A E. pose proof A as (C & HC & Q).
    assert (NE : x <> y).
    { destruct (teq_in E) as (B1 & t & B2 & -> & RO & _). assert (D : distinct3 t) by (apply (DI _ t A), in_or_app; right; left; auto).
      apply rot3_sym in RO. pose proof (rot3_distinct RO D). cbn in *. tauto. }
    assert (Q2 : teq C (Td d ((x, y, z) :: (x, y, w) :: W'))) by (eapply teq_trans; [exact Q|apply Td_teq; auto]).
    destruct d; cbn [Td map flip_tri] in Q2.
    + exact (chain_once HC N NE Q2).
    + apply (@chain_once _ _ _ HC N y x z w (map (@flip_tri nat) W')); auto.
      eapply teq_trans; [exact Q2|]. apply teq_cons2; [cbn; auto|cbn; auto|apply teq_refl].
    + apply (@chain_once _ _ _ HC N y x z w (map (@flip_tri nat) W')); auto.
      eapply teq_trans; [exact Q2|]. apply teq_cons2; [cbn; auto|cbn; auto|apply teq_refl].
Qed.

(** ** the triangles of one triangulator inside the common buffer *)
Definition t0 : tr := (0, 0, 0).
Definition sel (U : list tr) (K : list nat) : list tr := map (fun k => nth k U t0) K.
(** the map of opposite vertices mentions only triangles of the buffer at the right positions *)
Definition opp_ok (base : nat) (opp : pmap) (U : list tr) (K : list nat) : Prop :=
  forall x y z pos, p_get opp (x, y) = Some (z, pos) -> exists k, In k K /\ pos = base + 3 * k /\ rot3 (x, y, z) (nth k U t0).
(** everything outside of [K] is as before *)
Definition keeps (K : list nat) (U U' : list tr) : Prop := forall k, ~ In k K -> k < length U -> nth k U' t0 = nth k U t0.

Lemma nth_upd_eq U i t : i < length U -> nth i (upd U i t) t0 = t.
Proof. intros L. apply nth_error_nth. apply nth_error_upd_eq; auto. Qed.
Lemma nth_upd_ne U i k t : k <> i -> nth k (upd U i t) t0 = nth k U t0.
Proof.
  intros NE. destruct (nth_error U k) as [u|] eqn:E.
  - rewrite (nth_error_nth _ _ _ E). apply nth_error_nth. rewrite nth_error_upd_ne; auto.
  - apply nth_error_None in E. rewrite !nth_overflow; rewrite ?upd_length; auto.
Qed.
Lemma sel_upd U K i t : ~ In i K -> sel (upd U i t) K = sel U K.
Proof. intros N. apply map_ext_in. intros k I. apply nth_upd_ne. intros ->. auto. Qed.
Lemma sel_app U K K' : sel U (K ++ K') = sel U K ++ sel U K'.
Proof. apply map_app. Qed.
Lemma sel_snoc U t K : Forall (fun k => k < length U) K -> sel (U ++ [t]) (K ++ [length U]) = sel U K ++ [t].
Proof.
  intros B. rewrite sel_app. f_equal.
  - apply map_ext_in. intros k I. apply app_nth1. eapply Forall_forall in B; eauto.
  - cbn. rewrite app_nth2, Nat.sub_diag; auto.
Qed.
Lemma in_sel U K k : In k K -> In (nth k U t0) (sel U K).
Proof. intros I. apply (in_map (fun k => nth k U t0) K k I). Qed.
Lemma rot3_map (f : nat -> nat) a b c t : rot3 (a, b, c) t -> rot3 (f a, f b, f c) (relabel f t).
Proof. cbn. intros [-> |[-> | ->]]; cbn; auto. Qed.
Lemma rot3_fun a b c c' t : distinct3 t -> rot3 (a, b, c) t -> rot3 (a, b, c') t -> c = c'.
Proof.
  destruct t as [[x y] z]. cbn. intros (D1 & D2 & D3) [E|[E|E]] [G|[G|G]]; injection E as -> -> ->; injection G; intros; subst; congruence.
Qed.
Lemma rot3_opposite a b c d t : distinct3 t -> rot3 (a, b, c) t -> rot3 (b, a, d) t -> False.
Proof.
  destruct t as [[x y] z]. cbn. intros (D1 & D2 & D3) [E|[E|E]] [G|[G|G]]; injection E as -> -> ->; injection G; intros; subst; congruence.
Qed.
Lemma perm_front (K : list nat) i j : In i K -> In j K -> i <> j -> exists K0, Permutation K (i :: j :: K0).
Proof.
  intros I J NE. apply in_split in I as (A & B & ->).
  assert (J' : In j (A ++ B)). { apply in_app_or in J as [J|[J|J]]; [apply in_or_app; auto|congruence|apply in_or_app; auto]. }
  apply in_split in J' as (A' & B' & E). exists (A' ++ B').
  transitivity (i :: A ++ B); [symmetry; apply Permutation_middle|]. constructor. rewrite E. symmetry. apply Permutation_middle.
Qed.

Section Del.
  Variables (P : Type) (vs : list (P * nat)) (apos aneg : P -> P -> P -> bool).
  Variables (convex : P -> P -> P -> bool) (incircle : P -> P -> P -> P -> bool) (dbg : bool).
  Hypothesis inj : NoDup (map snd vs).
  Notation g := (glob vs).
  Notation n := (length vs).
  Variable pre : list nat.
  Notation buf U := (pre ++ flatten (map g U)).

  Lemma idx_inj a b : a < n -> b < n -> idx vs a = idx vs b -> a = b.
  Proof.
    intros A B E. unfold idx in E.
    destruct (nth_error vs a) as [p|] eqn:E1; [|apply nth_error_None in E1; lia].
    destruct (nth_error vs b) as [q|] eqn:E2; [|apply nth_error_None in E2; lia].
    rewrite NoDup_nth_error in inj. apply inj; [rewrite map_length; auto|]. rewrite !nth_error_map, E1, E2. cbn. congruence.
  Qed.
  Lemma glob_distinct t : distinct3 t -> (forall x, corner x t -> x < n) -> distinct3 (g t).
  Proof.
    destruct t as [[a b] c]. cbn. intros (D1 & D2 & D3) B.
    assert (a < n) by (apply B; auto). assert (b < n) by (apply B; auto). assert (c < n) by (apply B; auto).
    repeat split; intros E; apply idx_inj in E; auto.
  Qed.
  Lemma nth_glob U i : i < length U -> nth_error (map g U) i = Some (g (nth i U t0)).
  Proof. intros L. rewrite nth_error_map. rewrite (@nth_error_nth' _ U i t0 L). reflexivity. Qed.
  Lemma map_upd_g U i t : map g (upd U i t) = upd (map g U) i (g t).
  Proof. revert i. induction U as [|u U IH]; intros [|i]; cbn; auto. f_equal. auto. Qed.

  Variable F : list tr -> Prop.
  Hypothesis RF : region n F.

  Record own (ix : list nat) (opp : pmap) (U : list tr) (K : list nat) : Prop := mkOwn {
    o_ix : ix = buf U; o_nd : NoDup K; o_lt : Forall (fun k => k < length U) K; o_opp : opp_ok (length pre) opp U K;
    o_reg : F (sel U K) }.

  Lemma own_lt ix opp U K k : own ix opp U K -> In k K -> k < length U.
  Proof. intros O I. destruct O. eapply Forall_forall in o_lt0; eauto. Qed.

  (** what one step of the triangulator does to its triangles *)
  Lemma edge_ok ix opp U K a b : own ix opp U K ->
    exists r opp' ix' U', legalize_edge vs convex incircle opp ix a b = Ok (r, opp', ix') /\
      own ix' opp' U' K /\ length U' = length U /\ keeps K U U' /\
      match r with
      | None => True
      | Some (c, d) => a < n /\ b < n /\ c < n /\ d < n /\ a <> d /\ d <> c /\ c <> a /\ d <> b /\ b <> c
      end.
  Proof.
    intros O. unfold legalize_edge.
    assert (SAME : exists r opp' ix' U', Ok (@None (nat * nat), opp, ix) = Ok (r, opp', ix') /\ own ix' opp' U' K /\
       length U' = length U /\ keeps K U U' /\
       match r with None => True | Some (c, d) => a < n /\ b < n /\ c < n /\ d < n /\ a <> d /\ d <> c /\ c <> a /\ d <> b /\ b <> c end).
    { exists None, opp, ix, U. split; auto. split; auto. split; auto. split; [intros k _ _; auto|auto]. }
    destruct (p_get opp (a, b)) as [[c tab]|] eqn:Gab; [|exact SAME].
    destruct (o_opp O Gab) as (i & Ii & -> & Ri).
    assert (Di : distinct3 (nth i U t0)) by (eapply (r_dist RF); [exact (o_reg O)|apply in_sel; auto]).
    assert (Bi : forall x, corner x (nth i U t0) -> x < n) by (intros x; eapply (r_bound RF); [exact (o_reg O)|apply in_sel; auto]).
    assert (An : a < n) by (apply Bi; eapply rot3_corner; [exact Ri|cbn; auto]).
    assert (Bn : b < n) by (apply Bi; eapply rot3_corner; [exact Ri|cbn; auto]).
    assert (Cn : c < n) by (apply Bi; eapply rot3_corner; [exact Ri|cbn; auto]).
    destruct (at_some An) as [p1 E1]. destruct (at_some Bn) as [p2 E2]. destruct (at_some Cn) as [p3 E3].
    rewrite E1, E2, E3. cbn [bind].
    destruct (p_get opp (b, a)) as [[d tba]|] eqn:Gba; [|exact SAME].
    destruct (o_opp O Gba) as (j & Ij & -> & Rj).
    assert (Dj : distinct3 (nth j U t0)) by (eapply (r_dist RF); [exact (o_reg O)|apply in_sel; auto]).
    assert (Bj : forall x, corner x (nth j U t0) -> x < n) by (intros x; eapply (r_bound RF); [exact (o_reg O)|apply in_sel; auto]).
    assert (Dn : d < n) by (apply Bj; eapply rot3_corner; [exact Rj|cbn; auto]).
    destruct (at_some Dn) as [p4 E4]. rewrite E4. cbn [bind].
    destruct (negb _ || negb _); [exact SAME|].
    destruct (incircle _ _ _ _); [|exact SAME].
    assert (NE : i <> j) by (intros ->; eapply rot3_opposite; eauto).
    assert (Li : i < length U) by (eapply own_lt; eauto). assert (Lj : j < length U) by (eapply own_lt; eauto).
    assert (Ia : snd p1 = idx vs a) by (unfold idx; unfold at_ in E1; destruct (nth_error vs a); [injection E1 as ->; auto|discriminate]).
    assert (Ib : snd p2 = idx vs b) by (unfold idx; unfold at_ in E2; destruct (nth_error vs b); [injection E2 as ->; auto|discriminate]).
    rewrite (o_ix O), Ia, Ib.
    destruct (@flip_total pre (map g U) i j (idx vs a) (idx vs b)) as [r E]; [rewrite map_length; auto|rewrite map_length; auto|].
    pose proof E as E'. apply flip_slots in E'; [|auto|rewrite map_length; auto|rewrite map_length; auto].
    assert (Rj' : rot3 (a, d, b) (nth j U t0)) by (eapply rot3_trans; [|exact Rj]; cbn; auto).
    rewrite E. cbn [bind]. destruct r as [ix'|].
    2:{ exfalso. eapply (E' _ _ (idx vs c) (idx vs d)); [apply nth_glob; auto|apply nth_glob; auto|..].
        - apply glob_distinct; auto.
        - apply glob_distinct; auto.
        - apply (rot3_map (idx vs) Ri).
        - apply (rot3_map (idx vs) Rj'). }
    cbn [unwrap bind]. destruct E' as (T' & -> & FL). apply flipped_upd in FL as (c' & d' & t & u & Ti & Tj & R1 & R2 & ->); auto.
    rewrite nth_glob in Ti by auto. rewrite nth_glob in Tj by auto. injection Ti as <-. injection Tj as <-.
    assert (c' = idx vs c). { eapply rot3_fun; [|exact R1|exact (rot3_map (idx vs) Ri)]. apply glob_distinct; auto. }
    assert (d' = idx vs d).
    { assert (R3 : rot3 (idx vs b, idx vs a, d') (g (nth j U t0))) by (eapply rot3_trans; [|exact R2]; cbn; auto).
      eapply rot3_fun; [|exact R3|exact (rot3_map (idx vs) Rj)]. apply glob_distinct; auto. }
    subst c' d'. clear R1 R2 E.
    set (U' := upd (upd U i (a, d, c)) j (d, b, c)).
    assert (EU : upd (upd (map g U) i (idx vs a, idx vs d, idx vs c)) j (idx vs d, idx vs b, idx vs c) = map g U').
    { unfold U'. rewrite !map_upd_g. reflexivity. }
    rewrite EU.
    destruct (perm_front Ii Ij NE) as (K0 & PK).
    assert (ND : NoDup (i :: j :: K0)) by (eapply Permutation_NoDup; [exact PK|exact (o_nd O)]).
    inversion ND as [|? ? N1 ND1]; subst. inversion ND1 as [|? ? N2 ND2]; subst.
    assert (Q0 : teq (sel U K) ((a, b, c) :: (a, d, b) :: sel U K0)).
    { eapply teq_trans; [apply teq_perm, (Permutation_map _ PK)|]. cbn [sel map]. apply teq_cons2; [apply rot3_sym; auto|apply rot3_sym; auto|apply teq_refl]. }
    assert (Ui : nth i U' t0 = (a, d, c)) by (unfold U'; rewrite nth_upd_ne by auto; apply nth_upd_eq; auto).
    assert (Uj : nth j U' t0 = (d, b, c)) by (unfold U'; apply nth_upd_eq; rewrite upd_length; auto).
    assert (Uk : forall k, k <> i -> k <> j -> nth k U' t0 = nth k U t0) by (intros; unfold U'; rewrite !nth_upd_ne; auto).
    assert (S0 : sel U' K0 = sel U K0).
    { unfold U'. rewrite !sel_upd; auto. intros X. apply N1. right. auto. }
    pose proof (r_flip RF (o_reg O) Q0) as F1.
    assert (Q1 : teq ((a, d, c) :: (d, b, c) :: sel U K0) (sel U' K)).
    { apply teq_sym. eapply teq_trans; [apply teq_perm, (Permutation_map _ PK)|]. cbn [sel map]. rewrite Ui, Uj. fold (sel U' K0). rewrite S0. apply teq_refl. }
    assert (D1 : distinct3 (a, d, c)) by (eapply (r_dist RF); [exact F1|left; auto]).
    assert (D2 : distinct3 (d, b, c)) by (eapply (r_dist RF); [exact F1|right; left; auto]).
    cbn in D1, D2. do 4 eexists. split; [reflexivity|]. split; [|split; [|split]].
    - constructor; auto.
      + exact (o_nd O).
      + eapply Forall_impl; [|exact (o_lt O)]. intros k. unfold U'. rewrite !upd_length. auto.
      + intros x y z pos G. rewrite !get_insert, !get_remove in G.
        destruct (pair_eqb (x, y) (d, b)) eqn:X1. { apply pair_eqb_eq in X1. injection X1 as -> ->. injection G as <- <-. exists j. rewrite Uj. cbn; auto. }
        destruct (pair_eqb (x, y) (c, d)) eqn:X2. { apply pair_eqb_eq in X2. injection X2 as -> ->. injection G as <- <-. exists j. rewrite Uj. cbn; auto. }
        destruct (pair_eqb (x, y) (b, c)) eqn:X3. { apply pair_eqb_eq in X3. injection X3 as -> ->. injection G as <- <-. exists j. rewrite Uj. cbn; auto. }
        destruct (pair_eqb (x, y) (c, a)) eqn:X4. { apply pair_eqb_eq in X4. injection X4 as -> ->. injection G as <- <-. exists i. rewrite Ui. cbn; auto. }
        destruct (pair_eqb (x, y) (d, c)) eqn:X5. { apply pair_eqb_eq in X5. injection X5 as -> ->. injection G as <- <-. exists i. rewrite Ui. cbn; auto. }
        destruct (pair_eqb (x, y) (a, d)) eqn:X6. { apply pair_eqb_eq in X6. injection X6 as -> ->. injection G as <- <-. exists i. rewrite Ui. cbn; auto. }
        destruct (pair_eqb (x, y) (b, a)) eqn:X7; [discriminate|]. destruct (pair_eqb (x, y) (a, b)) eqn:X8; [discriminate|].
        destruct (o_opp O G) as (k & Ik & -> & Rk). exists k. split; auto. split; auto.
        assert (X : forall e, pair_eqb (x, y) e = false -> (x, y) <> e).
        { intros e H <-. rewrite (proj2 (pair_eqb_eq _ _) eq_refl) in H. discriminate. }
        destruct (Nat.eq_dec k i) as [-> |Ki].
        { exfalso. assert (rot3 (x, y, z) (a, b, c)) as H by (eapply rot3_trans; [exact Rk|apply rot3_sym; exact Ri]).
          cbn in H. destruct H as [H|[H|H]]; injection H as <- <- <-; [apply (X _ X8)|apply (X _ X4)|apply (X _ X3)]; auto. }
        destruct (Nat.eq_dec k j) as [-> |Kj].
        { exfalso. assert (rot3 (x, y, z) (b, a, d)) as H by (eapply rot3_trans; [exact Rk|apply rot3_sym; exact Rj]).
          cbn in H. destruct H as [H|[H|H]]; injection H as <- <- <-; [apply (X _ X7)|apply (X _ X1)|apply (X _ X6)]; auto. }
        rewrite Uk; auto.
      + exact (r_teq RF F1 Q1).
    - unfold U'. rewrite !upd_length. auto.
    - intros k Nk _. apply Uk; intros ->; auto.
    - tauto.
  Qed.

  (** ** the loop terminates *)
  Definition seen_ok (s : list (nat * nat)) : Prop := NoDup s /\ forall x, In x s -> fst x < n /\ snd x < n.
  Definition left_over (w : list (nat * nat) * list (nat * nat)) : nat := length (snd w) + (n * n - length (fst w)).
  Lemma seen_length s : seen_ok s -> length s <= n * n.
  Proof.
    intros [N B]. replace (n * n) with (length (list_prod (seq 0 n) (seq 0 n))) by (rewrite prod_length, seq_length; auto).
    apply NoDup_incl_length; auto. intros [a b] I. apply B in I as [A C]. apply in_prod; apply in_seq; cbn in *; lia.
  Qed.
  Lemma stack_ok con w a b : a <> b -> a < n -> b < n -> seen_ok (fst w) ->
    exists w', stack_edge con w a b = Ok w' /\ seen_ok (fst w') /\ left_over w' <= left_over w.
  Proof.
    intros NE A B S0. unfold stack_edge. destruct (Nat.eqb_spec a b); [congruence|]. cbn [negb assert].
    destruct (has (fst w) (key a b)) eqn:E1; [exists w; auto|]. destruct (has con (key a b)) eqn:E2; [exists w; auto|].
    eexists. split; [reflexivity|].
    assert (S1 : seen_ok (key a b :: fst w)).
    { destruct S0 as [N I]. split.
      - constructor; auto. intros X. apply has_in in X. congruence.
      - intros x [<- |X]; auto. unfold key. cbn. lia. }
    split; [exact S1|]. unfold left_over. cbn [fst snd length]. apply seen_length in S1. cbn [length] in S1. lia.
  Qed.
  Lemma loop_ok con : forall fuel w opp ix U K, seen_ok (fst w) -> left_over w < fuel -> own ix opp U K ->
    exists opp' ix' U', legalize_loop vs convex incircle fuel con w opp ix = Ok (opp', ix') /\
      own ix' opp' U' K /\ length U' = length U /\ keeps K U U'.
  Proof.
    induction fuel as [|fuel IH]; intros w opp ix U K S0 L O; [lia|]. cbn [legalize_loop].
    destruct (snd w) as [|[a b] rest] eqn:EW.
    - exists opp, ix, U. split; auto. split; auto. split; auto. intros k _ _. auto.
    - destruct (edge_ok a b O) as (r & opp1 & ix1 & U1 & -> & O1 & L1 & K1 & D). cbn [bind].
      assert (FIN : forall w', seen_ok (fst w') -> left_over w' < fuel -> exists opp' ix' U',
                legalize_loop vs convex incircle fuel con w' opp1 ix1 = Ok (opp', ix') /\ own ix' opp' U' K /\ length U' = length U /\ keeps K U U').
      { intros w' S1 M. destruct (IH w' _ _ _ _ S1 M O1) as (opp2 & ix2 & U2 & -> & O2 & L2 & K2).
        exists opp2, ix2, U2. split; auto. split; auto. split; [congruence|]. intros k N B. rewrite K2, K1; auto. lia. }
      assert (M0 : left_over (fst w, rest) < fuel). { unfold left_over in *. rewrite EW in L. cbn [fst snd length] in *. lia. }
      destruct r as [[c d]|]; [|apply FIN; auto].
      destruct D as (An & Bn & Cn & Dn & D1 & D2 & D3 & D4 & D5).
      destruct (@stack_ok con (fst w, rest) c d) as (w1 & -> & S1 & M1); auto. cbn [bind].
      destruct (@stack_ok con w1 a d) as (w2 & -> & S2 & M2); auto. cbn [bind].
      destruct (@stack_ok con w2 b c) as (w3 & -> & S3 & M3); auto. cbn [bind].
      destruct (@stack_ok con w3 b d) as (w4 & -> & S4 & M4); auto. cbn [bind].
      destruct (@stack_ok con w4 a c) as (w5 & -> & S5 & M5); auto. cbn [bind].
      apply FIN; auto. lia.
  Qed.
  Lemma triangle_ok con opp ix U K x y z : x <> y -> y <> z -> z <> x -> x < n -> y < n -> z < n -> own ix opp U K ->
    exists opp' ix' U', legalize_triangle vs convex incircle con opp ix x y z = Ok (opp', ix') /\
      own ix' opp' U' K /\ length U' = length U /\ keeps K U U'.
  Proof.
    intros D1 D2 D3 X Y Z O. unfold legalize_triangle.
    destruct (@stack_ok con ([], []) x y) as (w1 & -> & S1 & M1); auto. { split; [constructor|intros ? []]. } cbn [bind].
    destruct (@stack_ok con w1 y z) as (w2 & -> & S2 & M2); auto. cbn [bind].
    destruct (@stack_ok con w2 z x) as (w3 & -> & S3 & M3); auto. cbn [bind].
    apply loop_ok; auto. change (left_over ([], [])) with (n * n - 0) in M1. lia.
  Qed.
End Del.

(** ** stacks *)
Lemma chain_stack st p C : chain st p C -> forall s, In s st -> In s p.
Proof.
  induction 1 as [s|s t st p l T1 T2 H IH G]; intros u I; auto.
  destruct I as [<- |I]; [apply in_or_app; right; left; auto|]. specialize (IH _ I). rewrite !in_app_iff in *. cbn [In] in *. tauto.
Qed.
Lemma chain_cut x s1 s2 st p C : chain (x :: s1 :: s2 :: st) p C ->
  exists C', chain (x :: s2 :: st) p C' /\ teq C' (C ++ [(s2, s1, x)]).
Proof.
  inversion 1 as [|a b st1 q1 l1 T1 T2 H1 G1]; subst.
  inversion H1 as [|a b st2 q2 l2 T3 T4 H2 G2 E1 E2 E3]; subst. apply app_inj_tail in E2 as [<- _].
  exists (T3 ++ ((s2, s1, x) :: T4 ++ T2)). split.
  - replace (((q2 ++ s2 :: l2) ++ s1 :: l1) ++ [x]) with ((q2 ++ s2 :: l2 ++ s1 :: l1) ++ [x]) by (rewrite <- !app_assoc; cbn; rewrite <- ?app_assoc; reflexivity).
    constructor; auto. apply tri_node; auto.
  - eapply teq_trans; [apply teq_mid|]. apply teq_sym. eapply teq_trans; [apply teq_mid|]. rewrite app_nil_r, <- app_assoc. apply teq_refl.
Qed.
Lemma chain_cut_bottom s1 s2 x : forall top p C, chain (top ++ [s2; s1; x]) p C ->
  exists C', chain (top ++ [s2; x]) p C' /\ teq C' (C ++ [(x, s1, s2)]).
Proof.
  induction top as [|t top IH]; intros p C H; cbn [app] in *.
  - apply chain_cut. auto.
  - assert (exists s r r', top ++ [s2; s1; x] = s :: r /\ top ++ [s2; x] = s :: r') as (s & r & r' & E & E').
    { destruct top as [|h top]; cbn; eauto. }
    rewrite E in *. rewrite E' in *. inversion H as [|a b st1 q1 l1 T1 T2 H1 G1]; subst.
    destruct (IH _ _ H1) as (C' & HC & Q). exists (C' ++ T2). split; [constructor; auto|].
    eapply teq_trans; [apply teq_app; [exact Q|apply teq_refl]|]. apply teq_perm. rewrite <- !app_assoc.
    apply Permutation_app_head, Permutation_app_comm.
Qed.
Lemma chain_below x st p C : chain st p C -> chain (st ++ [x]) (x :: p) C.
Proof.
  induction 1 as [s|s t st p l T1 T2 H IH G].
  - apply (@ch_push _ x s [] [] [] [] [] (ch_one x)). constructor.
  - apply (@ch_push _ s t (st ++ [x]) (x :: p) l T1 T2); auto.
Qed.
Lemma chain_turn s x p C : chain [s; x] p C -> chain [x; s] (rev p) (map (@flip_tri nat) C).
Proof.
  inversion 1 as [|a b st1 q1 l1 T1 T2 H1 G1]; subst. inversion H1 as [a E1 E2 E3|]; subst.
  change [x] with ([] ++ [x]) in E2. apply app_inj_tail in E2 as [<- _]. cbn [app rev].
  rewrite rev_app_distr. cbn [app rev]. apply (@ch_push _ s x [] [] (rev l1) [] _ (ch_one s)). apply tri_mirror. auto.
Qed.

Lemma above_same d x s1 s2 st p W : above d (x :: s1 :: s2 :: st) p W -> above d (x :: s2 :: st) p (W ++ [emitted d s1 s2 x]).
Proof.
  intros (C & HC & Q). destruct (chain_cut HC) as (C' & HC' & Q'). exists C'. split; auto.
  eapply teq_trans; [exact Q'|]. rewrite Td_app. apply teq_app; auto. apply emitted_teq.
Qed.
Lemma above_fan d x s1 s2 top p W : d <> DNone -> above d (top ++ [s2; s1; x]) p W ->
  above d (top ++ [s2; x]) p (W ++ [emitted (other d) s1 s2 x]).
Proof.
  intros ND (C & HC & Q). destruct (chain_cut_bottom HC) as (C' & HC' & Q'). exists C'. split; auto.
  eapply teq_trans; [exact Q'|]. rewrite Td_app. apply teq_app; auto.
  destruct d; cbn; [apply teq_turn|apply teq_sym, teq_turn|congruence].
Qed.
Lemma above_turn d s x p W : d <> DNone -> above d [s; x] p W -> above (other d) [x; s] (rev p) W.
Proof.
  intros ND (C & HC & Q). exists (map (@flip_tri nat) C). split; [apply chain_turn; auto|].
  apply teq_flip in Q. destruct d; cbn in *; auto; [rewrite flip_flip in Q; auto|congruence].
Qed.
Lemma above_push d s st q x W : above d (s :: st) (q ++ [s]) W -> above d (x :: s :: st) ((q ++ [s]) ++ [x]) W.
Proof.
  intros (C & HC & Q). exists (C ++ []). split; [|rewrite app_nil_r; auto]. constructor; [auto|constructor].
Qed.
Lemma above_below d st p x W : above d st p W -> above d (st ++ [x]) (x :: p) W.
Proof. intros (C & HC & Q). exists C. split; auto using chain_below. Qed.
Lemma above_stack d st p W s : above d st p W -> In s st -> In s p.
Proof. intros (C & HC & _). eapply chain_stack; eauto. Qed.

(** how a step changes the buffer: the old triangles of others stay, the new ones are appended *)
Definition grows (K : list nat) (U : list tr) (K' : list nat) (U' : list tr) (m : nat) : Prop :=
  length U' = length U + m /\ K' = K ++ seq (length U) m /\ keeps K U U'.
Lemma grows_refl K U : grows K U K U 0.
Proof. split; [auto|]. split; [cbn; rewrite app_nil_r; auto|]. intros k _ _. auto. Qed.
Lemma grows_trans K1 U1 m1 K2 U2 m2 K3 U3 : grows K1 U1 K2 U2 m1 -> grows K2 U2 K3 U3 m2 -> grows K1 U1 K3 U3 (m1 + m2).
Proof.
  intros (L1 & -> & P1) (L2 & -> & P2). split; [lia|]. split.
  - rewrite <- app_assoc, seq_app, L1. auto.
  - intros k N B. rewrite P2; [apply P1; auto| |lia]. intros I. apply in_app_or in I as [I|I]; [auto|]. apply in_seq in I. lia.
Qed.

Section Run.
  Variables (P : Type) (vs : list (P * nat)) (apos aneg : P -> P -> P -> bool).
  Variables (convex : P -> P -> P -> bool) (incircle : P -> P -> P -> P -> bool) (dbg : bool).
  Hypothesis inj : NoDup (map snd vs).
  Notation g := (glob vs).
  Notation n := (length vs).
  Variable pre : list nat.
  Notation own := (own vs pre).
  Notation small := (Forall (fun x : nat => x < n)).

  Lemma put_ok2 opp ix U K a b c (F0 F : list tr -> Prop) : own F0 ix opp U K -> region n F -> F (sel U K ++ [(a, b, c)]) ->
    exists opp' ix', del_put vs dbg opp ix a b c = Ok (opp', ix') /\ own F ix' opp' (U ++ [(a, b, c)]) (K ++ [length U]).
  Proof.
    intros O RF H. unfold del_put.
    assert (I : In (a, b, c) (sel U K ++ [(a, b, c)])) by (apply in_or_app; right; left; auto).
    assert (A : a < n) by (eapply (r_bound RF); [exact H|exact I|cbn; auto]).
    assert (B : b < n) by (eapply (r_bound RF); [exact H|exact I|cbn; auto]).
    assert (C : c < n) by (eapply (r_bound RF); [exact H|exact I|cbn; auto]).
    destruct (put_total ix A B C) as [ix' E]. pose proof (put_ok E) as (Ex & _). rewrite E. cbn [bind].
    assert (NO : forall x y z, rot3 (x, y, z) (a, b, c) -> p_get opp (x, y) = None).
    { intros x y z RO. destruct (p_get opp (x, y)) as [[z' pos]|] eqn:G; auto. exfalso.
      destruct (o_opp O G) as (k & Ik & _ & Rk). apply in_split in Ik as (K1 & K2 & EK).
      apply (r_once RF H (x := x) (y := y) (z := z) (w := z') (W' := sel U K1 ++ sel U K2)).
      eapply teq_trans; [apply teq_perm, Permutation_app_comm|]. cbn [app].
      eapply teq_trans; [apply teq_rot, rot3_sym; exact RO|]. apply teq_cons. rewrite EK, sel_app. cbn [sel map].
      eapply teq_trans; [apply teq_mid|]. apply teq_rot. apply rot3_sym. auto. }
    rewrite (NO a b c), (NO b c a), (NO c a b) by (cbn; auto). cbn [is_none andb]. rewrite orb_true_r. cbn [assert].
    do 2 eexists. split; [reflexivity|]. pose proof (o_lt O) as LT. pose proof (o_ix O) as IX.
    assert (EL : length ix = length pre + 3 * length U) by (rewrite IX, app_length, flatten_length, map_length; auto).
    assert (NT : nth (length U) (U ++ [(a, b, c)]) t0 = (a, b, c)) by (rewrite app_nth2, Nat.sub_diag; auto).
    constructor.
    - rewrite Ex, IX. rewrite map_app, flatten_app, app_assoc. reflexivity.
    - eapply Permutation_NoDup; [apply Permutation_cons_append|]. constructor; [|exact (o_nd O)].
      intros Ik. eapply Forall_forall in LT; eauto. cbn in LT. lia.
    - apply Forall_app. split; [eapply Forall_impl; [|exact LT]|constructor; [|constructor]]; rewrite app_length; cbn; intros; lia.
    - intros x y z pos G. rewrite !get_insert in G.
      destruct (pair_eqb (x, y) (c, a)) eqn:X1. { apply pair_eqb_eq in X1. injection X1 as -> ->. injection G as <- <-. exists (length U). rewrite NT. split; [apply in_or_app; right; left; auto|]. split; [auto|cbn; auto]. }
      destruct (pair_eqb (x, y) (b, c)) eqn:X2. { apply pair_eqb_eq in X2. injection X2 as -> ->. injection G as <- <-. exists (length U). rewrite NT. split; [apply in_or_app; right; left; auto|]. split; [auto|cbn; auto]. }
      destruct (pair_eqb (x, y) (a, b)) eqn:X3. { apply pair_eqb_eq in X3. injection X3 as -> ->. injection G as <- <-. exists (length U). rewrite NT. split; [apply in_or_app; right; left; auto|]. split; [auto|cbn; auto]. }
      destruct (o_opp O G) as (k & Ik & -> & Rk). exists k. split; [apply in_or_app; auto|]. split; auto.
      rewrite app_nth1; auto. eapply Forall_forall in LT; eauto.
    - rewrite sel_snoc; auto.
  Qed.

  Lemma emit_ok opp ix U K con d x y z s1 s2 (F0 F : list tr -> Prop) : own F0 ix opp U K -> region n F -> F (sel U K ++ [emitted d s1 s2 x]) ->
    (y = s1 /\ z = s2 \/ y = s2 /\ z = s1) ->
    exists opp' ix' U' K', del_emit vs convex incircle dbg d x con (opp, ix) y z s1 s2 = Ok (opp', ix') /\ own F ix' opp' U' K' /\ grows K U K' U' 1.
  Proof.
    intros O RF H E. unfold del_emit. cbn [fst snd].
    assert (A : exists opp' ix', (match d with DLeft => del_put vs dbg opp ix s1 x s2 | _ => del_put vs dbg opp ix s1 s2 x end) = Ok (opp', ix') /\
              own F ix' opp' (U ++ [emitted d s1 s2 x]) (K ++ [length U])).
    { destruct d; apply put_ok2 with (F0 := F0); auto. }
    destruct A as (opp1 & ix1 & -> & O1). cbn [bind fst snd].
    assert (I : In (emitted d s1 s2 x) (sel U K ++ [emitted d s1 s2 x])) by (apply in_or_app; right; left; auto).
    assert (D : s1 <> s2 /\ s2 <> x /\ s1 <> x).
    { pose proof (r_dist RF H I) as D. destruct d; cbn in D; intuition. }
    assert (S1 : s1 < n) by (eapply (r_bound RF); [exact H|exact I|destruct d; cbn; auto]).
    assert (S2 : s2 < n) by (eapply (r_bound RF); [exact H|exact I|destruct d; cbn; auto]).
    assert (X : x < n) by (eapply (r_bound RF); [exact H|exact I|destruct d; cbn; auto]).
    assert (B : exists opp' ix' U', legalize_triangle vs convex incircle con opp1 ix1 y z x = Ok (opp', ix') /\
              own F ix' opp' U' (K ++ [length U]) /\ length U' = length (U ++ [emitted d s1 s2 x]) /\ keeps (K ++ [length U]) (U ++ [emitted d s1 s2 x]) U').
    { apply triangle_ok; auto; destruct E as [[-> ->]|[-> ->]]; intuition. }
    destruct B as (opp2 & ix2 & U2 & -> & O2 & L2 & K2). exists opp2, ix2, U2, (K ++ [length U]).
    split; auto. split; auto. rewrite app_length in L2. cbn in L2. split; [auto|]. split; [auto|].
    intros k N B. rewrite K2, app_nth1; auto.
    - intros J. apply in_app_or in J as [J|[J|[]]]; [auto|lia].
    - rewrite app_length. cbn. lia.
  Qed.

  Lemma del_same_ok con d x p : NoDup p -> small p -> forall st s1 opp ix U K, own (above d (x :: s1 :: st) p) ix opp U K ->
    exists st' opp' ix' U' K' m, del_same vs apos aneg convex incircle dbg d x con (s1 :: st) (opp, ix) = Ok (st', (opp', ix')) /\
      own (above d st' p) ix' opp' U' K' /\ 2 <= length st' /\ grows K U K' U' m /\
      forall jx, exists jx', lin_same vs apos aneg d x (s1 :: st) jx = Ok (st', jx') /\ length jx' = length jx + 3 * m.
  Proof.
    intros N B. induction st as [|s2 st IH]; intros s1 opp ix U K O.
    - exists [x; s1], opp, ix, U, K, 0. split; [reflexivity|]. split; [auto|]. split; [cbn; lia|]. split; [apply grows_refl|].
      intros jx. exists jx. split; [reflexivity|lia].
    - assert (ST : forall s, In s (x :: s1 :: s2 :: st) -> s < n).
      { intros s I. rewrite Forall_forall in B. apply B. eapply above_stack; [exact (o_reg O)|auto]. }
      assert (X : x < n) by (apply ST; cbn; auto). assert (S1 : s1 < n) by (apply ST; cbn; auto). assert (S2 : s2 < n) by (apply ST; cbn; auto).
      destruct (blocked_total apos aneg d X S1 S2) as [b Eb].
      change (del_same vs apos aneg convex incircle dbg d x con (s1 :: s2 :: st) (opp, ix)) with
        (let* b := blocked vs apos aneg d x s1 s2 in if b then Ok (x :: s1 :: s2 :: st, (opp, ix)) else
         let* s := del_emit vs convex incircle dbg d x con (opp, ix) s2 s1 s1 s2 in
         del_same vs apos aneg convex incircle dbg d x con (s2 :: st) s).
      rewrite Eb. cbn [bind]. destruct b.
      + exists (x :: s1 :: s2 :: st), opp, ix, U, K, 0. split; [reflexivity|]. split; [auto|]. split; [cbn; lia|]. split; [apply grows_refl|].
        intros jx. exists jx. cbn [lin_same]. rewrite Eb. cbn [bind]. split; [reflexivity|lia].
      + destruct (@emit_ok opp ix U K con d x s2 s1 s1 s2 _ (above d (x :: s2 :: st) p) O) as (opp1 & ix1 & U1 & K1 & -> & O1 & G1).
        * apply above_region; auto.
        * apply above_same. exact (o_reg O).
        * auto.
        * cbn [bind]. destruct (IH _ _ _ _ _ O1) as (st' & opp2 & ix2 & U2 & K2 & m & -> & O2 & L2 & G2 & LN2).
          exists st', opp2, ix2, U2, K2, (1 + m). split; auto. split; auto. split; auto. split; [eapply grows_trans; eauto|].
          intros jx. change (lin_same vs apos aneg d x (s1 :: s2 :: st) jx) with
            (let* b := blocked vs apos aneg d x s1 s2 in if b then Ok (x :: s1 :: s2 :: st, jx) else
             let* ix := match d with DLeft => put vs jx s1 x s2 | _ => put vs jx s1 s2 x end in
             lin_same vs apos aneg d x (s2 :: st) ix).
          rewrite Eb. cbn [bind].
          assert (PT : exists j1, match d with DLeft => put vs jx s1 x s2 | _ => put vs jx s1 s2 x end = Ok j1) by (destruct d; apply put_total; auto).
          destruct PT as [j1 PT]. rewrite PT. apply emitted_ok in PT. cbn [bind].
          destruct (LN2 j1) as (j2 & E2 & L3). exists j2. split; [exact E2|]. rewrite L3, PT, app_length, flatten_length. cbn [length]. lia.
  Qed.

  Lemma del_fan_ok con d x p : d <> DNone -> NoDup p -> small p -> forall l s1 opp ix U K, own (above d (rev (s1 :: l) ++ [x]) p) ix opp U K ->
    exists last opp' ix' U' K' m, del_fan vs convex incircle dbg (other d) x con (s1 :: l) (opp, ix) = Ok (opp', ix') /\
      (exists r, rev (s1 :: l) = last :: r) /\
      own (above d [last; x] p) ix' opp' U' K' /\ grows K U K' U' m /\
      forall jx, exists jx', lin_fan vs (other d) x (s1 :: l) jx = Ok jx' /\ length jx' = length jx + 3 * m.
  Proof.
    intros ND N B. induction l as [|s2 l IH]; intros s1 opp ix U K O.
    - exists s1, opp, ix, U, K, 0. split; [reflexivity|]. split; [exists []; auto|]. split; [auto|]. split; [apply grows_refl|].
      intros jx. exists jx. split; [reflexivity|lia].
    - assert (E : rev (s1 :: s2 :: l) ++ [x] = rev l ++ [s2; s1; x]) by (cbn; rewrite <- !app_assoc; reflexivity). rewrite E in O.
      assert (ST : forall s, In s (rev l ++ [s2; s1; x]) -> s < n).
      { intros s I. rewrite Forall_forall in B. apply B. eapply above_stack; [exact (o_reg O)|auto]. }
      assert (X : x < n) by (apply ST, in_or_app; cbn; auto). assert (S1 : s1 < n) by (apply ST, in_or_app; cbn; auto). assert (S2 : s2 < n) by (apply ST, in_or_app; cbn; auto).
      change (del_fan vs convex incircle dbg (other d) x con (s1 :: s2 :: l) (opp, ix)) with
        (let* s := del_emit vs convex incircle dbg (other d) x con (opp, ix) s1 s2 s1 s2 in
         del_fan vs convex incircle dbg (other d) x con (s2 :: l) s).
      destruct (@emit_ok opp ix U K con (other d) x s1 s2 s1 s2 _ (above d (rev (s2 :: l) ++ [x]) p) O) as (opp1 & ix1 & U1 & K1 & -> & O1 & G1).
      * apply above_region; auto.
      * cbn [rev]. rewrite <- app_assoc. cbn [app]. apply above_fan; auto. exact (o_reg O).
      * auto.
      * cbn [bind]. destruct (IH _ _ _ _ _ O1) as (last & opp2 & ix2 & U2 & K2 & m & -> & (r & ER) & O2 & G2 & LN2).
        exists last, opp2, ix2, U2, K2, (1 + m). split; auto. split; [change (rev (s1 :: s2 :: l)) with (rev (s2 :: l) ++ [s1]); rewrite ER; exists (r ++ [s1]); auto|].
        split; auto. split; [eapply grows_trans; eauto|].
        intros jx. change (lin_fan vs (other d) x (s1 :: s2 :: l) jx) with
          (let* ix := match other d with DLeft => put vs jx s1 x s2 | _ => put vs jx s1 s2 x end in lin_fan vs (other d) x (s2 :: l) ix).
        assert (PT : exists j1, match other d with DLeft => put vs jx s1 x s2 | _ => put vs jx s1 s2 x end = Ok j1) by (destruct (other d); apply put_total; auto).
        destruct PT as [j1 PT]. rewrite PT. apply emitted_ok in PT. cbn [bind].
        destruct (LN2 j1) as (j2 & E2 & L3). exists j2. split; [exact E2|]. rewrite L3, PT, app_length, flatten_length. cbn [length]. lia.
  Qed.

  (** ** insertions *)
  Definition DI (e : del) (ix : list nat) (Q : list nat) (U : list tr) (K : list nat) : Prop :=
    own (above (e_d e) (e_stack e) (Qd (e_d e) Q)) ix (e_opp e) U K /\
    (e_d e = DNone -> exists v, e_stack e = [v] /\ Q = [v]) /\ (e_d e <> DNone -> 2 <= length (e_stack e)).
  Definition same_as (s : lin) (e : del) : Prop :=
    l_stack s = e_stack e /\ l_d s = e_d e /\ l_left s = e_left e /\ l_right s = e_right e.

  Lemma small_Qd d Q : small Q -> small (Qd d Q).
  Proof. destruct d; cbn; auto; apply Forall_rev. Qed.
  Lemma nodup_Qd d Q : NoDup Q -> NoDup (Qd d Q).
  Proof. destruct d; cbn; auto; apply NoDup_rev. Qed.
  Lemma own_region ix opp U K (F0 F : list tr -> Prop) : own F0 ix opp U K -> F (sel U K) -> own F ix opp U K.
  Proof. intros [? ? ? ? ?] H. constructor; auto. Qed.
  Lemma dir_eqb_eq a b : dir_eqb a b = true <-> a = b.
  Proof. destruct a, b; cbn; split; congruence. Qed.

  Lemma del_add_ok e s x d ix Q U K : d <> DNone -> DI e ix Q U K -> same_as s e -> NoDup (ext d Q x) -> small (ext d Q x) ->
    exists e' ix' U' K' m, del_add vs apos aneg convex incircle dbg e x d ix = Ok (e', ix') /\ DI e' ix' (ext d Q x) U' K' /\
      grows K U K' U' m /\ e_d e' = d /\ forall jx, exists s' jx', lin_add vs apos aneg s x d jx = Ok (s', jx') /\ same_as s' e' /\ length jx' = length jx + 3 * m.
  Proof.
    intros ND (O & DN & DS) (ES & ED & EL & ER) N B. unfold del_add, lin_add. rewrite ED, ES.
    assert (DD : dir_eqb d d = true) by (apply dir_eqb_eq; auto).
    destruct (dir_eqb (e_d e) DNone) eqn:EN.
    - apply dir_eqb_eq in EN. destruct (DN EN) as (v & E1 & ->). rewrite E1. cbn [length Nat.eqb assert s_first rev app hd_error unwrap bind fst l_d].
      rewrite DD. cbn [assert]. do 5 eexists. split; [reflexivity|]. split; [|split; [apply grows_refl|split; [reflexivity|]]].
      + split; [|split; [cbn; congruence|cbn; lia]]. cbn [e_d e_stack e_opp constrain]. eapply own_region; [exact O|].
        pose proof (o_reg O) as A. rewrite EN, E1 in A. destruct A as (C & HC & Q0). cbn in HC. inversion HC; subst.
        apply teq_length in Q0. cbn in Q0. rewrite !map_length in Q0. destruct K; [|discriminate]. cbn [sel map].
        rewrite Qd_ext. replace (Qd d [v]) with [v] by (destruct d; auto).
        exists []. split; [apply (@ch_push _ v x [] [] [] [] [] (ch_one v)); constructor|]. destruct d; apply teq_refl.
      + intros jx. do 2 eexists. split; [reflexivity|]. split; [|lia]. split; [reflexivity|]. split; [reflexivity|]. auto.
    - assert (NN : e_d e <> DNone) by (intros E; rewrite E in EN; discriminate). specialize (DS NN).
      destruct (dir_eqb (e_d e) d) eqn:EQ.
      + apply dir_eqb_eq in EQ. rewrite EQ in *.
        destruct (e_stack e) as [|s1 st] eqn:E1; [cbn in DS; lia|].
        cbn [s_last hd_error unwrap bind e_stack constrain]. rewrite E1. cbn [length Nat.leb assert].
        cbn [e_con constrain e_opp].
        pose proof (o_reg O) as A. assert (exists q, Qd d Q = q ++ [s1]) as (q & Eq) by (destruct A as (C & HC & _); eapply chain_last; eauto).
        destruct (@del_same_ok (key s1 x :: e_con e) d x (Qd d Q ++ [x])) with (st := st) (s1 := s1) (opp := e_opp e) (ix := ix) (U := U) (K := K)
          as (st' & opp' & ix' & U' & K' & m & E2 & O' & L' & G' & LN').
        * rewrite <- Qd_ext. apply nodup_Qd; auto.
        * rewrite <- Qd_ext. apply small_Qd; auto.
        * eapply own_region; [exact O|]. rewrite Eq in *. apply above_push. auto.
        * rewrite E2. cbn [bind fst snd]. do 5 eexists. split; [reflexivity|].
          split; [|split; [exact G'|split; [exact EQ|]]].
          -- split; [|split; [cbn; congruence|cbn; auto]]. cbn [e_d e_stack e_opp constrain]. rewrite EQ, Qd_ext. exact O'.
          -- intros jx. destruct (LN' jx) as (jx' & E3 & L3). rewrite E3. cbn [bind fst snd l_d]. rewrite DD. cbn [assert].
             do 2 eexists. split; [reflexivity|]. split; [|exact L3]. split; [reflexivity|]. split; [cbn; congruence|]. auto.
      + assert (Eo : d = other (e_d e)) by (destruct d, (e_d e); cbn in *; congruence).
        destruct (e_stack e) as [|s1 [|s2 st]] eqn:E1; [cbn in DS; lia|cbn in DS; lia|].
        assert (exists b l, rev (s1 :: s2 :: st) = b :: l) as (b & l & El).
        { destruct (rev (s1 :: s2 :: st)) eqn:E; eauto. apply (f_equal (@length nat)) in E. rewrite rev_length in E. discriminate. }
        unfold s_first. rewrite El. cbn [hd_error unwrap bind]. unfold del_opposite, lin_opposite. cbn [e_d e_stack constrain e_con e_opp e_left e_right].
        rewrite ED, EQ, ES, E1. cbn [negb assert]. rewrite El.
        assert (Er : rev (b :: l) = s1 :: s2 :: st) by (rewrite <- El; apply rev_involutive).
        destruct (@del_fan_ok (key b x :: e_con e) (e_d e) x (x :: Qd (e_d e) Q) NN) with (l := l) (s1 := b) (opp := e_opp e) (ix := ix) (U := U) (K := K)
          as (last & opp' & ix' & U' & K' & m & E2 & (r & E3) & O' & G' & LN').
        * assert (Ex : x :: Qd (e_d e) Q = rev (Qd d (ext d Q x))).
          { rewrite Qd_ext, rev_app_distr. cbn. f_equal. rewrite Eo. destruct (e_d e); cbn; rewrite ?rev_involutive; auto; congruence. }
          rewrite Ex. apply NoDup_rev, nodup_Qd. auto.
        * assert (Ex : x :: Qd (e_d e) Q = rev (Qd d (ext d Q x))).
          { rewrite Qd_ext, rev_app_distr. cbn. f_equal. rewrite Eo. destruct (e_d e); cbn; rewrite ?rev_involutive; auto; congruence. }
          rewrite Ex. apply Forall_rev, small_Qd. auto.
        * rewrite Er. eapply own_region; [exact O|]. apply above_below. exact (o_reg O).
        * rewrite Er in E3. injection E3 as <- _. rewrite Eo, E2. cbn [bind fst snd]. do 5 eexists. split; [reflexivity|].
          split; [|split; [exact G'|split; [reflexivity|]]].
          -- split; [|split; [cbn; destruct (e_d e); cbn; congruence|cbn; lia]]. cbn [e_d e_stack e_opp].
             eapply own_region; [exact O'|]. pose proof (o_reg O') as A. apply above_turn in A; auto. cbn [rev] in A.
             rewrite Qd_ext. replace (Qd (other (e_d e)) Q) with (rev (Qd (e_d e) Q)); [exact A|].
             destruct (e_d e); cbn; rewrite ?rev_involutive; auto; congruence.
          -- intros jx. destruct (LN' jx) as (jx' & E4 & L3). rewrite E4. cbn [bind fst snd l_d]. rewrite (proj2 (dir_eqb_eq _ _) eq_refl). cbn [assert].
             do 2 eexists. split; [reflexivity|]. split; [|exact L3]. split; [reflexivity|]. split; [reflexivity|]. auto.
  Qed.
End Run.

Lemma nodup_mid (A : Type) (a b c : list A) : NoDup (a ++ b ++ c) -> NoDup b.
Proof.
  intros H. induction a as [|x a IH]; [|inversion H; auto].
  cbn in H. revert H. clear. induction b as [|x b IH]; intros H; [constructor|]. inversion H; subst. constructor; auto.
  intros I. apply H2. apply in_or_app. auto.
Qed.
Lemma grow_part (A : list nat -> Prop) Q ops : (forall a b c : list nat, A (a ++ b ++ c) -> A b) -> A (grow Q ops) -> A Q.
Proof. intros H. unfold grow. apply H. Qed.

Section RunAll.
  Variables (P : Type) (vs : list (P * nat)) (apos aneg : P -> P -> P -> bool).
  Variables (convex : P -> P -> P -> bool) (incircle : P -> P -> P -> P -> bool) (dbg : bool).
  Hypothesis inj : NoDup (map snd vs).
  Notation n := (length vs).
  Notation small := (Forall (fun x : nat => x < n)).
  Notation M := (delaunay dbg vs apos aneg convex incircle).
  Notation L := (linear vs apos aneg).

  Lemma small_mid (a b c : list nat) : small (a ++ b ++ c) -> small b.
  Proof. rewrite !Forall_app. tauto. Qed.

  Lemma del_steps_ok pre : forall ops (e : del) (s : lin) ix Q U K, DI vs pre e ix Q U K -> same_as s e ->
    NoDup (grow Q ops) -> small (grow Q ops) ->
    exists e' ix' U' K' m, @m_steps M ops (e, ix) = Ok (e', ix') /\ DI vs pre e' ix' (grow Q ops) U' K' /\ grows K U K' U' m /\
      e_d e' = last_dir (e_d e) ops /\
      forall jx, exists s' jx', @m_steps L ops (s, jx) = Ok (s', jx') /\ same_as s' e' /\ length jx' = length jx + 3 * m.
  Proof.
    induction ops as [|[b x] ops IH]; intros e s ix Q U K I S0 N B.
    - exists e, ix, U, K, 0. split; [reflexivity|]. rewrite grow_nil. split; [auto|]. split; [apply grows_refl|]. split; [reflexivity|].
      intros jx. exists s, jx. split; [reflexivity|]. split; [auto|lia].
    - rewrite grow_cons in *. cbn [m_steps]. unfold m_step. cbn [fst snd].
      assert (N1 : NoDup (ext (dside b) Q x)) by (apply (grow_part (@nodup_mid nat) N)).
      assert (B1 : small (ext (dside b) Q x)) by (apply (grow_part small_mid B)).
      set (e1 := if b then mkDel (e_stack e) (e_d e) (e_con e) (e_opp e) (Some x) (e_right e)
                 else mkDel (e_stack e) (e_d e) (e_con e) (e_opp e) (e_left e) (Some x)).
      set (s1 := if b then mkLin (l_stack s) (l_d s) (Some x) (l_right s) else mkLin (l_stack s) (l_d s) (l_left s) (Some x)).
      assert (I1 : DI vs pre e1 ix Q U K) by (unfold e1; destruct b; exact I).
      assert (S1 : same_as s1 e1) by (destruct S0 as (? & ? & ? & ?); unfold s1, e1; destruct b; repeat split; auto).
      assert (ND : dside b <> DNone) by (destruct b; discriminate).
      destruct (@del_add_ok _ vs apos aneg convex incircle dbg inj pre e1 s1 x (dside b) ix Q U K ND I1 S1 N1 B1)
        as (e2 & ix2 & U2 & K2 & m & E2 & I2 & G2 & D2 & LN).
      assert (EM : (if b then m_left (m := M) e x ix else m_right (m := M) e x ix) = Ok (e2, ix2)) by (unfold e1 in E2; destruct b; exact E2).
      rewrite EM. cbn [bind].
      destruct (LN ([] : list nat)) as (s2 & _ & _ & S2 & _).
      destruct (IH e2 s2 ix2 _ U2 K2 I2 S2 N B) as (e3 & ix3 & U3 & K3 & m' & E3 & I3 & G3 & D3 & LN3).
      exists e3, ix3, U3, K3, (m + m'). split; [exact E3|]. split; [exact I3|]. split; [eapply grows_trans; eauto|].
      split; [rewrite D3, D2; reflexivity|].
      intros jx. destruct (LN jx) as (s4 & jx4 & E4 & S4 & L4).
      assert (s4 = s2).
      { destruct S2 as (A1 & A2 & A3 & A4), S4 as (C1 & C2 & C3 & C4). destruct s4, s2. cbn in *. congruence. }
      subst s4. assert (EL : (if b then m_left (m := L) s x jx else m_right (m := L) s x jx) = Ok (s2, jx4)) by (unfold s1 in E4; destruct b; exact E4).
      rewrite EL. cbn [bind]. destruct (LN3 jx4) as (s5 & jx5 & E5 & S5 & L5). exists s5, jx5. split; [exact E5|]. split; [auto|]. lia.
  Qed.

  Lemma DI_new pre v U : DI vs pre (del_new v) (pre ++ flatten (map (glob vs) U)) [v] U [].
  Proof.
    split; [|split; [cbn; eauto|cbn; congruence]]. constructor; auto; try constructor; cbn.
    - intros x y z pos. discriminate.
    - exists []. split; [constructor|apply teq_refl].
  Qed.
  Lemma sel_all U : sel U (seq 0 (length U)) = U.
  Proof.
    unfold sel. apply List.nth_ext with (d := t0) (d' := t0); [rewrite map_length, seq_length; auto|].
    intros k Lk. rewrite map_length, seq_length in Lk. apply nth_error_nth. rewrite nth_error_map.
    rewrite (@nth_error_nth' _ (seq 0 (length U)) k 0) by (rewrite seq_length; auto). rewrite seq_nth; auto.
  Qed.
  Lemma grow_nodup v ops : NoDup (v :: map snd ops) -> NoDup (grow [v] ops).
  Proof.
    intros H. eapply Permutation_NoDup; [|exact H]. clear. unfold grow. cbn [app].
    transitivity (v :: side_of false ops ++ side_of true ops).
    - constructor. unfold side_of. induction ops as [|[[|] x] ops IH]; cbn; auto.
      etransitivity; [apply perm_skip, IH|]. apply Permutation_middle.
    - etransitivity; [apply Permutation_middle|]. apply Permutation_app_tail, Permutation_rev.
  Qed.
  Lemma grow_small v ops : v < n -> Forall (fun o => snd o < n) ops -> small (grow [v] ops).
  Proof.
    intros V B. unfold grow, side_of. rewrite !Forall_app. rewrite Forall_forall in B. repeat split.
    - apply Forall_rev, Forall_forall. intros x I. apply in_map_iff in I as (o & <- & I). apply filter_In in I as [I _]. auto.
    - auto.
    - apply Forall_forall. intros x I. apply in_map_iff in I as (o & <- & I). apply filter_In in I as [I _]. auto.
  Qed.

  Lemma del_run_ok v ops pre : ops <> [] -> NoDup (v :: map snd ops) -> v < n -> Forall (fun o => snd o < n) ops ->
    exists s e ix jx U, m_steps ops (m_new M v, pre) = Ok (e, ix) /\ m_steps ops (m_new L v, pre) = Ok (s, jx) /\
      e_stack e = l_stack s /\ e_d e = l_d s /\ length ix = length jx /\
      ix = pre ++ flatten (map (glob vs) U) /\ LI (e_d e) (e_stack e) (grow [v] ops) U /\ e_d e <> DNone.
  Proof.
    intros NE N V B. pose proof (DI_new pre v []) as I. cbn [map flatten flat_map] in I. rewrite app_nil_r in I.
    destruct (@del_steps_ok pre ops (del_new v) (lin_new v) pre [v] [] []) as (e & ix & U & K & m & E & I' & G & D & LN); auto.
    - repeat split.
    - apply grow_nodup; auto.
    - apply grow_small; auto.
    - destruct (LN pre) as (s & jx & EL & (S1 & S2 & _) & LL). exists s, e, ix, jx, U. split; [exact E|]. split; [exact EL|].
      split; [auto|]. split; [auto|]. destruct I' as (O & _ & DS). destruct G as (GL & GK & _). cbn [length app Nat.add] in GL, GK.
      split; [rewrite (o_ix O), app_length, flatten_length, map_length; lia|]. split; [exact (o_ix O)|].
      assert (DN : e_d e <> DNone) by (rewrite D; apply last_dir_some; auto). split; [|auto].
      pose proof (o_reg O) as (C & HC & QC). specialize (DS DN). rewrite GK, <- GL, sel_all in QC.
      unfold LI. destruct (e_d e); try congruence; exists C; auto.
  Qed.
End RunAll.

Lemma index_at_idx P (vs : list (P * nat)) i : index_at vs i = idx vs i.
Proof. unfold idx, index_at. revert i. induction vs as [|p vs IH]; intros [|i]; cbn; auto. Qed.

Lemma delaunay_like_linear : forall (P : Type) (vs : list (P * nat)) apos aneg convex incircle dbg v ops pre,
  NoDup (map snd vs) -> NoDup (v :: map snd ops) -> v < length vs -> Forall (fun o => snd o < length vs) ops -> ops <> [] ->
  exists s e ix jx, m_steps ops (m_new (linear vs apos aneg) v, pre) = Ok (s, jx) /\
    m_steps ops (m_new (delaunay dbg vs apos aneg convex incircle) v, pre) = Ok (e, ix) /\
    e_stack e = l_stack s /\ e_d e = l_d s /\ length ix = length jx /\
    m_run (linear vs apos aneg) v ops pre = (if length (l_stack s) <=? 2 then Ok jx else Panic) /\
    m_run (delaunay dbg vs apos aneg convex incircle) v ops pre = (if length (l_stack s) <=? 2 then Ok ix else Panic).
Proof.
  intros P vs apos aneg convex incircle dbg v ops pre I N V B NE.
  destruct (@del_run_ok P vs apos aneg convex incircle dbg I v ops pre NE N V B) as (s & e & ix & jx & U & E1 & E2 & ES & ED & LE & _).
  exists s, e, ix, jx. do 5 (split; [auto|]). unfold m_run. rewrite E1, E2. cbn. unfold lin_finish, del_finish. rewrite ES. auto.
Qed.
Lemma delaunay_prefix : forall (P : Type) (vs : list (P * nat)) apos aneg convex incircle dbg v ops pre e ix,
  NoDup (map snd vs) -> NoDup (v :: map snd ops) -> v < length vs -> Forall (fun o => snd o < length vs) ops -> ops <> [] ->
  m_steps ops (m_new (delaunay dbg vs apos aneg convex incircle) v, pre) = Ok (e, ix) ->
  exists U, ix = pre ++ flatten (map (relabel (index_at vs)) U) /\ forall T',
    triangulates (match e_d e with DLeft => rev (e_stack e) | _ => e_stack e end) T' -> triangulates (chain_poly v ops) (U ++ T').
Proof.
  intros P vs apos aneg convex incircle dbg v ops pre e0 ix0 I N V B NE E0.
  destruct (@del_run_ok P vs apos aneg convex incircle dbg I v ops pre NE N V B) as (s & e & ix & jx & U & E1 & _ & _ & _ & _ & -> & LI1 & DN).
  rewrite E1 in E0. injection E0 as <- <-. exists U. split.
  - do 2 f_equal. apply map_ext. intros [[a b] c]. unfold glob, relabel. rewrite !index_at_idx. reflexivity.
  - intros T' K. apply grow_triangulates. apply (LI_rest LI1); auto. 
Qed.
Lemma delaunay_run : forall (P : Type) (vs : list (P * nat)) apos aneg convex incircle dbg v ops pre ix,
  NoDup (map snd vs) -> NoDup (v :: map snd ops) -> v < length vs -> Forall (fun o => snd o < length vs) ops -> ops <> [] ->
  m_run (delaunay dbg vs apos aneg convex incircle) v ops pre = Ok ix ->
  exists T, ix = pre ++ flatten T /\ triangulates (map (index_at vs) (chain_poly v ops)) T.
Proof.
  intros P vs apos aneg convex incircle dbg v ops pre ix0 I N V B NE E0.
  destruct (@del_run_ok P vs apos aneg convex incircle dbg I v ops pre NE N V B) as (s & e & ix & jx & U & E1 & _ & _ & _ & _ & -> & LI1 & DN).
  unfold m_run in E0. rewrite E1 in E0. cbn in E0. unfold del_finish in E0. inv_ok E0. injection E0 as <-. apply Nat.leb_le in H.
  exists (map (glob vs) U). split; auto. rewrite (map_ext _ _ (@index_at_idx P vs)). apply glob_triangulates, grow_triangulates. apply (LI_done LI1); auto.
Qed.

(** ** repeated vertices *)
Definition rep_vs (l : list nat) : list (unit * nat) := map (fun i => (tt, i)) l.
Lemma repeated_mesh_vertex : exists (vs : list (unit * nat)) v ops apos aneg convex incircle, NoDup (v :: map snd ops) /\
  v < length vs /\ Forall (fun o : bool * nat => snd o < length vs) ops /\
  (exists ix, m_run (linear vs apos aneg) v ops [] = Ok ix) /\
  forall dbg, m_run (delaunay dbg vs apos aneg convex incircle) v ops [] = Panic.
Proof.
  exists (rep_vs [0; 1; 2; 0]), 0, [(true, 1); (true, 2); (false, 3)], (fun _ _ _ => false), (fun _ _ _ => false), (fun _ _ _ => true), (fun _ _ _ _ => true).
  split; [repeat constructor; cbn; intuition discriminate|]. split; [cbn; lia|]. split; [repeat constructor|].
  split; [eexists; vm_compute; reflexivity|]. intros [|]; vm_compute; reflexivity.
Qed.
Lemma repeated_entry : exists (vs : list (unit * nat)) v ops apos aneg convex incircle, NoDup (map snd vs) /\
  v < length vs /\ Forall (fun o : bool * nat => snd o < length vs) ops /\
  (exists ix, m_run (linear vs apos aneg) v ops [] = Ok ix) /\
  forall dbg, m_run (delaunay dbg vs apos aneg convex incircle) v ops [] = Panic.
Proof.
  exists (rep_vs [0; 1; 2]), 0, [(true, 1); (true, 2); (false, 0)], (fun _ _ _ => false), (fun _ _ _ => false), (fun _ _ _ => true), (fun _ _ _ _ => true).
  split; [repeat constructor; cbn; intuition discriminate|]. split; [cbn; lia|]. split; [repeat constructor|].
  split; [eexists; vm_compute; reflexivity|]. intros [|]; vm_compute; reflexivity.
Qed.
