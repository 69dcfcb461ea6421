(** Proofs for the search tree of the sweep line. *)
From Coq Require Import List Arith Bool QArith Sorting.Sorted Lqa Lia.
From Verif Require Import Base Mesh Tess Monotone GeoSpec Geo Sweep SweepTree SweepTreeSpec.
Import ListNotations.
Set Implicit Arguments.
Unset Strict Implicit.
Local Open Scope Q_scope.

(** Positions on edges *)
Lemma x_horizontal s y : snd (so_to s) == snd (so_from s) -> so_x s y = fst (so_to s).
Proof. intros H. unfold so_x. replace (Qeq_bool _ 0) with true; auto. symmetry. apply Qeq_bool_iff. lra. Qed.
Lemma x_affine s : ~ snd (so_to s) == snd (so_from s) -> exists k c, forall y, so_x s y == k * y + c.
Proof.
  intros H. unfold so_x. destruct (Qeq_bool _ 0) eqn:E; [apply Qeq_bool_iff in E; exfalso; apply H; lra|].
  set (dy := snd (so_to s) - snd (so_from s)) in *. assert (D : ~ dy == 0) by (unfold dy; intros C; apply H; lra).
  exists ((fst (so_to s) - fst (so_from s)) / dy), (fst (so_from s) - (fst (so_to s) - fst (so_from s)) * snd (so_from s) / dy).
  intros y. field. auto.
Qed.
Lemma x_ext s y y' : y == y' -> so_x s y == so_x s y'.
Proof.
  intros H. destruct (Qeq_dec (snd (so_to s)) (snd (so_from s))) as [E|E].
  - rewrite !x_horizontal; auto. reflexivity.
  - destruct (x_affine E) as (k & c & A). rewrite !A, H. reflexivity.
Qed.
Theorem x_on_edge s y : spans s y -> on_edge s (so_x s y) y.
Proof.
  intros [L U]. destruct (Qeq_dec (snd (so_to s)) (snd (so_from s))) as [E|E].
  - exists 1. rewrite x_horizontal by auto. repeat split; try lra.
  - unfold so_x. destruct (Qeq_bool _ 0) eqn:B; [apply Qeq_bool_iff in B; exfalso; apply E; lra|].
    set (d := snd (so_from s) - snd (so_to s)). assert (D : 0 < d) by (unfold d; apply Qnot_le_lt; intros C; apply E; lra).
    exists ((snd (so_from s) - y) / d). repeat split.
    + apply Qle_shift_div_l; auto. lra.
    + apply Qle_shift_div_r; auto. unfold d. lra.
    + unfold d. field. unfold d in D. split; lra.
    + unfold d. field. unfold d in D. lra.
Qed.
Lemma on_edge_spans s x y : snd (so_to s) <= snd (so_from s) -> on_edge s x y -> spans s y.
Proof. intros H (t & T0 & T1 & _ & Y). unfold spans. rewrite Y. split; nra. Qed.
(** off the horizontal edges the position is the only one *)
Lemma on_edge_x s x y : ~ snd (so_to s) == snd (so_from s) -> on_edge s x y -> x == so_x s y.
Proof.
  intros E (t & _ & _ & X & Y). unfold so_x. destruct (Qeq_bool _ 0) eqn:B; [apply Qeq_bool_iff in B; exfalso; apply E; lra|].
  rewrite X, Y. field. intros C. apply E. lra.
Qed.
Lemma apart_sym a b : apart a b -> apart b a.
Proof. intros H x y A B. exact (H x y B A). Qed.
Lemma apart_x a b y : apart a b -> spans a y -> spans b y -> ~ so_x a y == so_x b y.
Proof.
  intros H A B C. apply x_on_edge in A, B. apply (H (so_x a y) y A). destruct B as (t & B). exists t. rewrite C. exact B.
Qed.

(** Edges without a common point keep their order at all heights they both reach. *)
Lemma keep a b y y' : apart a b -> spans a y -> spans b y -> spans a y' -> spans b y' -> so_x b y < so_x a y -> so_x b y' < so_x a y'.
Proof.
  intros H A B A' B' L. apply Qnot_le_lt. intros C.
  assert (N : ~ so_x a y' == so_x b y') by (apply apart_x; auto).
  assert (L' : so_x a y' < so_x b y') by (apply Qnot_le_lt; intros G; apply N; lra). clear C N.
  destruct (Qeq_dec (snd (so_to a)) (snd (so_from a))) as [E|E].
  { assert (Y : y == y') by (unfold spans in *; lra). rewrite (x_ext a Y), (x_ext b Y) in L. lra. }
  destruct (Qeq_dec (snd (so_to b)) (snd (so_from b))) as [F|F].
  { assert (Y : y == y') by (unfold spans in *; lra). rewrite (x_ext a Y), (x_ext b Y) in L. lra. }
  destruct (x_affine E) as (k & c & P). destruct (x_affine F) as (k' & c' & Q). rewrite !P, !Q in L, L'.
  set (d := (k * y + c) - (k' * y + c')) in *. set (d' := (k * y' + c) - (k' * y' + c')) in *.
  assert (D : 0 < d) by (unfold d; lra). assert (D' : d' < 0) by (unfold d'; lra).
  set (t := d / (d - d')). assert (T0 : 0 <= t) by (apply Qle_shift_div_l; lra). assert (T1 : t <= 1) by (apply Qle_shift_div_r; lra).
  assert (TD : t * (d - d') == d) by (unfold t; field; lra).
  set (z := y + t * (y' - y)).
  apply (@apart_x a b z); auto.
  - unfold spans in *. unfold z. split; nra.
  - unfold spans in *. unfold z. split; nra.
  - rewrite P, Q. unfold z. assert (G : (k * (y + t * (y' - y)) + c) - (k' * (y + t * (y' - y)) + c') == d - t * (d - d')) by (unfold d, d'; ring).
    rewrite TD in G. lra.
Qed.
(** the comparison is that of the positions, reversed, at every height both reach *)
Lemma cmp_at a b y : apart a b -> spans a y -> spans b y -> (so_cmp a b = Gt <-> so_x a y < so_x b y) /\ (so_cmp a b = Lt <-> so_x b y < so_x a y) /\ so_cmp a b <> Eq.
Proof.
  intros H A B. unfold so_cmp. set (c := if Qle_bool _ _ then _ else _).
  assert (SC : spans a c /\ spans b c).
  { unfold c, spans in *. destruct (Qle_bool _ _) eqn:E; [apply Qle_bool_iff in E; lra|].
    assert (~ snd (so_from b) <= snd (so_from a)) by (intros C; apply Qle_bool_iff in C; congruence). lra. }
  destruct SC as [AC BC]. pose proof (apart_x H AC BC) as N. split; [|split].
  - rewrite <- Qgt_alt. split; intros L; [apply (@keep b a c y)|apply (@keep b a y c)]; auto using apart_sym.
  - rewrite <- Qlt_alt. split; intros L; [apply (@keep a b c y)|apply (@keep a b y c)]; auto.
  - rewrite <- Qeq_alt. intros C. apply N. rewrite C. reflexivity.
Qed.
Lemma cmp_refl s : so_cmp s s = Eq.
Proof. unfold so_cmp. apply Qeq_alt. reflexivity. Qed.

(** the points of an edge at one height form a segment *)
Lemma on_edge_convex s x x' y u : on_edge s x y -> on_edge s x' y -> 0 <= u -> u <= 1 -> on_edge s (x + u * (x' - x)) y.
Proof.
  intros (t & T0 & T1 & X & Y) (t' & T0' & T1' & X' & Y') U0 U1. exists ((1 - u) * t + u * t'). split; [nra|]. split; [nra|]. split.
  - rewrite X, X'. ring.
  - transitivity ((1 - u) * y + u * y); [ring|]. rewrite Y at 1. rewrite Y'. ring.
Qed.
(** the order of [ordered] in terms of positions *)
Definition xgt (y : Q) (a b : sorter) : Prop := so_x b y < so_x a y.
Lemma right_of_x a b y : apart a b -> spans a y -> spans b y -> (right_of y a b <-> xgt y a b).
Proof.
  intros H A B. unfold xgt. split.
  2: { intros L. exists (so_x a y), (so_x b y). auto using x_on_edge. }
  intros (xa & xb & PA & PB & L). apply Qnot_le_lt. intros C.
  pose proof (x_on_edge A) as XA. pose proof (x_on_edge B) as XB.
  set (a' := so_x a y) in *. set (b' := so_x b y) in *. clearbody a' b'.
  set (d := xa - xb). set (d' := a' - b'). assert (D : 0 < d) by (unfold d; lra). assert (D' : d' <= 0) by (unfold d'; lra).
  set (u := d / (d - d')). assert (T0 : 0 <= u) by (apply Qle_shift_div_l; lra). assert (T1 : u <= 1) by (apply Qle_shift_div_r; lra).
  assert (TD : u * (d - d') == d) by (unfold u; field; lra).
  apply (H (xa + u * (a' - xa)) y); [apply on_edge_convex; auto|].
  destruct (on_edge_convex PB XB T0 T1) as (t & W0 & W1 & WX & WY). exists t. repeat split; auto. rewrite <- WX.
  assert (G : xa + u * (a' - xa) - (xb + u * (b' - xb)) == d - u * (d - d')) by (unfold d, d'; ring). rewrite TD in G. lra.
Qed.

Lemma ordered_x y t : pairwise t -> (forall s, In s t -> spans s y) -> NoDup t -> (StronglySorted (right_of y) t <-> StronglySorted (xgt y) t).
Proof.
  induction t as [|a t IH]; intros P S N; [split; constructor|]. inversion N; subst.
  assert (IH' : StronglySorted (right_of y) t <-> StronglySorted (xgt y) t) by (apply IH; auto; [intros u v U V; apply P; now right|intros s I; apply S; now right]).
  assert (Q : forall b, In b t -> (right_of y a b <-> xgt y a b)).
  { intros b I. apply right_of_x; [apply P; [now left|now right|congruence]|apply S; now left|apply S; now right]. }
  split; intros SS; inversion SS as [|? ? S1 S2]; subst; constructor; try (apply IH'; assumption);
    rewrite Forall_forall in *; intros b I; apply Q; auto.
Qed.

Lemma ordered_of y t : pairwise t -> ordered y t -> (forall s, In s t -> spans s y) /\ NoDup t /\ StronglySorted (xgt y) t.
Proof. intros P (S & N & O). split; auto. split; auto. apply (ordered_x P S N). auto. Qed.
Lemma of_ordered y t : pairwise t -> (forall s, In s t -> spans s y) -> StronglySorted (xgt y) t -> ordered y t.
Proof.
  intros P S O. assert (N : NoDup t).
  { clear P S. induction O as [|a t O IH F]; constructor; auto. intros I. rewrite Forall_forall in F. specialize (F a I). unfold xgt in F. lra. }
  split; auto. split; auto. apply (ordered_x P S N). auto.
Qed.

Theorem ordered_lower y y' t : pairwise t -> ordered y t -> (forall s, In s t -> spans s y') -> ordered y' t.
Proof.
  intros P O S'. destruct (ordered_of P O) as (S & N & X). apply of_ordered; auto.
  clear O. induction X as [|a t X IH F]; constructor.
  - inversion N; subst. apply IH; auto; [intros u v U V; apply P; now right|intros; apply S'; now right|intros; apply S; now right].
  - inversion N; subst. rewrite Forall_forall in *. intros b I. unfold xgt. apply (@keep a b y y'); try (apply S || apply S'; now left); try (apply S; now right); try (apply S'; now right).
    + apply P; [now left|now right|congruence].
    + exact (F b I).
Qed.

Lemma insert_x y s t : (forall e, In e t -> apart s e) -> spans s y -> (forall e, In e t -> spans e y) -> StronglySorted (xgt y) t ->
  exists t', t_insert s t = (true, t') /\ StronglySorted (xgt y) t' /\ (forall e, In e t' <-> e = s \/ In e t).
Proof.
  intros A SP S X. induction X as [|a t X IH F].
  - exists [s]. split; [reflexivity|]. split; [repeat constructor|]. intros e. cbn. intuition.
  - cbn [t_insert]. destruct (@cmp_at s a y) as (G & L & NE); [apply A; now left|auto|apply S; now left|].
    rewrite Forall_forall in F. destruct (so_cmp s a) eqn:C; [congruence| |].
    + exists (s :: a :: t). split; [reflexivity|]. pose proof (proj1 L eq_refl) as LT. split.
      * constructor; [constructor; auto; apply Forall_forall; auto|]. apply Forall_forall. intros e [<-|I]; [exact LT|]. specialize (F e I). unfold xgt in *. lra.
      * intros e. cbn. intuition.
    + destruct IH as (t' & E & X' & I'); [intros; apply A; now right|intros; apply S; now right|]. rewrite E. exists (a :: t'). split; [reflexivity|].
      pose proof (proj1 G eq_refl) as GT. split.
      * constructor; auto. apply Forall_forall. intros e I. apply I' in I as [->|I]; [exact GT|auto].
      * intros e. cbn [In]. rewrite I'. intuition.
Qed.
Theorem insert_ok y s t : pairwise (s :: t) -> ordered y t -> spans s y -> ~ In s t ->
  exists t', t_insert s t = (true, t') /\ ordered y t' /\ (forall e, In e t' <-> e = s \/ In e t).
Proof.
  intros P O SP N. assert (P' : pairwise t) by (intros u v U V; apply P; now right).
  destruct (ordered_of P' O) as (S & _ & X). destruct (@insert_x y s t) as (t' & E & X' & I); auto.
  { intros e I. apply P; [now left|now right|congruence]. }
  exists t'. split; auto. split; auto. apply of_ordered; auto.
  - intros u v U V. apply P; [apply I in U|apply I in V]; cbn; intuition.
  - intros e J. apply I in J as [->|J]; auto.
Qed.
Lemma remove_x y s t : pairwise t -> (forall e, In e t -> spans e y) -> NoDup t -> StronglySorted (xgt y) t -> In s t ->
  exists t', t_remove s t = (true, t') /\ StronglySorted (xgt y) t' /\ (forall e, In e t' <-> In e t /\ e <> s).
Proof.
  intros P S N X I. induction X as [|a t X IH F]; [destruct I|]. inversion N as [|? ? NA N']; subst. cbn [t_remove]. rewrite Forall_forall in F.
  destruct I as [->|I].
  - rewrite cmp_refl. exists t. split; auto. split; auto. intros e. cbn [In]. split; [|intuition congruence]. intros J. split; auto. intros ->. auto.
  - assert (NE : s <> a) by (intros ->; auto).
    destruct (@cmp_at s a y) as (G & _ & _); [apply P; [now right|now left|auto]|apply S; now right|apply S; now left|].
    assert (GT : so_cmp s a = Gt) by (apply G, (F s I)). rewrite GT.
    destruct IH as (t' & E & X' & I'); auto; [intros u v U V; apply P; now right|intros; apply S; now right|]. rewrite E. exists (a :: t'). split; auto. split.
    + constructor; auto. apply Forall_forall. intros e J. apply I' in J as [J _]. auto.
    + intros e. cbn [In]. rewrite I'. intuition congruence.
Qed.
Theorem remove_ok y s t : pairwise t -> ordered y t -> In s t ->
  exists t', t_remove s t = (true, t') /\ ordered y t' /\ (forall e, In e t' <-> In e t /\ e <> s).
Proof.
  intros P O I. destruct (ordered_of P O) as (S & N & X). destruct (@remove_x y s t) as (t' & E & X' & I'); auto.
  exists t'. split; auto. split; auto. apply of_ordered; auto.
  - intros u v U V. apply I' in U as [U _]. apply I' in V as [V _]. auto.
  - intros e J. apply I' in J as [J _]. auto.
Qed.

(** The search for a position *)
Lemma cmp_query p e : spans e (snd p) -> (so_cmp (mkSo None p p) e = Gt <-> fst p < so_x e (snd p)).
Proof.
  intros [L U]. unfold so_cmp. cbn [so_from]. set (c := if Qle_bool _ _ then _ else _).
  assert (C : c == snd p) by (unfold c; destruct (Qle_bool _ _) eqn:E; [apply Qle_bool_iff in E; lra|reflexivity]).
  rewrite <- Qgt_alt. rewrite (x_ext e C), (@x_horizontal (mkSo None p p)) by reflexivity. reflexivity.
Qed.
Lemma range_x p t : (forall e, In e t -> spans e (snd p)) -> StronglySorted (xgt (snd p)) t ->
  match t_range (mkSo None p p) t with
  | None => forall e, In e t -> fst p < so_x e (snd p)
  | Some e => In e t /\ so_x e (snd p) <= fst p /\ forall e', In e' t -> so_x e' (snd p) <= fst p -> so_x e' (snd p) <= so_x e (snd p)
  end.
Proof.
  intros S X. induction X as [|a t X IH F]; [intros e []|]. cbn [t_range].
  pose proof (@cmp_query p a (S a (or_introl eq_refl))) as G. rewrite Forall_forall in F.
  assert (NG : so_cmp (mkSo None p p) a <> Gt -> In a (a :: t) /\ so_x a (snd p) <= fst p /\ forall e', In e' (a :: t) -> so_x e' (snd p) <= fst p -> so_x e' (snd p) <= so_x a (snd p)).
  { intros H. split; [now left|]. split; [apply Qnot_lt_le; intros C; apply H, G; auto|].
    intros e' [<-|I] _; [lra|]. specialize (F e' I). unfold xgt in F. lra. }
  destruct (so_cmp (mkSo None p p) a); try (apply NG; congruence).
  pose proof (proj1 G eq_refl) as GT. specialize (IH (fun e I => S e (or_intror I))). destruct (t_range _ t) as [e|].
  - destruct IH as (I & L & M). split; [now right|]. split; auto. intros e' [<-|J]; [lra|auto].
  - intros e [<-|I]; auto.
Qed.
(** the check of a debug build passes *)
Lemma sanity_ok y t : pairwise t -> ordered y t -> tree_sanity y None t = Ok tt.
Proof.
  intros P O. destruct (ordered_of P O) as (S & _ & X). clear P O.
  assert (G : forall last, (forall l, last = Some l -> spans l y /\ forall e, In e t -> xgt y l e) -> tree_sanity y last t = Ok tt); [|apply G; congruence].
  induction X as [|a t X IH F]; intros last H; [reflexivity|]. cbn [tree_sanity]. rewrite Forall_forall in F.
  assert (N : tree_sanity y (Some a) t = Ok tt).
  { apply IH; [intros; apply S; now right|]. intros l E. injection E as <-. split; [apply S; now left|auto]. }
  destruct last as [l|]; [|exact N]. destruct (H l eq_refl) as [SP XL]. specialize (XL a (or_introl eq_refl)). destruct (S a (or_introl eq_refl)) as [LA UA].
  destruct SP as [LL UL]. unfold so_new. cbn [snd]. replace (Qle_bool _ _) with true by (symmetry; apply Qle_bool_iff; auto). cbn [assert bind].
  replace (match so_cmp _ a with Gt => false | _ => true end) with true; [exact N|].
  assert (C : so_cmp (mkSo (so_left l) (so_x l y, y) (so_to l)) a <> Gt).
  { unfold so_cmp. cbn [so_from snd]. set (c := if Qle_bool _ _ then _ else _).
    assert (C : c == y) by (unfold c; destruct (Qle_bool _ _) eqn:E; [apply Qle_bool_iff in E; lra|reflexivity]).
    rewrite <- Qgt_alt. rewrite (x_ext a C), (x_ext _ C). unfold xgt in XL.
    assert (Z : so_x (mkSo (so_left l) (so_x l y, y) (so_to l)) y == so_x l y).
    { destruct (Qeq_dec (snd (so_to l)) y) as [E|E].
      - rewrite x_horizontal by exact E. cbn [so_to]. destruct (Qeq_dec (snd (so_to l)) (snd (so_from l))) as [F'|F'].
        + rewrite x_horizontal; auto. reflexivity.
        + unfold so_x. destruct (Qeq_bool _ 0) eqn:B; [reflexivity|]. rewrite <- E. field. lra.
      - destruct (x_affine (s := mkSo (so_left l) (so_x l y, y) (so_to l)) E) as (k & d & _).
        unfold so_x at 1. cbn [so_from so_to fst snd]. destruct (Qeq_bool _ 0) eqn:B; [apply Qeq_bool_iff in B; exfalso; apply E; lra|].
        field. lra. }
    rewrite Z. lra. }
  destruct (so_cmp _ a); auto. congruence.
Qed.

Section Find.
  Variable vs : list (pt * nat).
  Variable M : mono.
  Implicit Types (left : list (option (interval M))) (v : interval M).

  Lemma from_interval_ok v s : from_interval vs v = Ok s -> so_left s = Some (snd (i_left v)) /\ forall y, x_at_y vs (i_left v) y = Ok (so_x s y).
  Proof.
    unfold from_interval, x_at_y, so_new. destruct (pos_of vs (fst (i_left v))) as [a| |] eqn:EA; cbn [bind]; try discriminate.
    destruct (pos_of vs (snd (i_left v))) as [b| |] eqn:EB; cbn [bind]; try discriminate.
    unfold assert. destruct (Qle_bool _ _); [|discriminate]. intros E. injection E as <-. split; [reflexivity|]. intros y. reflexivity.
  Qed.
  Lemma contains_ok v p xl xr : reaches vs v (snd p) xl xr -> xl <= xr ->
    exists b, i_contains vs v p = Ok b /\ (b = true <-> xl <= fst p /\ fst p <= xr).
  Proof.
    intros [L R] LE. unfold i_contains. rewrite L. cbn [bind]. unfold Qlt_b. destruct (Qle_bool xl (fst p)) eqn:E; cbn [negb].
    - apply Qle_bool_iff in E. rewrite R. cbn [bind]. replace (Qle_bool xl xr) with true by (symmetry; apply Qle_bool_iff; auto). cbn [assert].
      eexists. split; [reflexivity|]. rewrite Qle_bool_iff. intuition.
    - exists false. split; [reflexivity|]. split; [discriminate|]. intros [C _]. apply Qle_bool_iff in C. congruence.
  Qed.
  Lemma find_from_spec p l : (forall v, In (Some v) l -> exists b, i_contains vs v p = Ok b) -> forall k,
    exists o, find_from vs k l p = Ok o /\
      match o with
      | Some j => exists i v, j = (k + i)%nat /\ nth_error l i = Some (Some v) /\ i_contains vs v p = Ok true
      | None => forall i v, nth_error l i = Some (Some v) -> i_contains vs v p = Ok false
      end.
  Proof.
    induction l as [|[v|] l IH]; intros H k.
    - exists None. split; [reflexivity|]. intros [|i] v; discriminate.
    - cbn [find_from]. destruct (H v (or_introl eq_refl)) as (b & E). rewrite E. cbn [bind]. destruct b.
      + exists (Some k). split; [reflexivity|]. exists 0%nat, v. split; [lia|]. split; auto.
      + destruct (IH (fun v' I => H v' (or_intror I)) (S k)) as (o & F & O). exists o. split; auto. destruct o as [j|].
        * destruct O as (i & v' & -> & N & C). exists (S i), v'. split; [lia|]. auto.
        * intros [|i] v' N; [injection N as <-; auto|eauto].
    - cbn [find_from]. destruct (IH (fun v' I => H v' (or_intror I)) (S k)) as (o & F & O). exists o. split; auto. destruct o as [j|].
      + destruct O as (i & v' & -> & N & C). exists (S i), v'. split; [lia|]. auto.
      + intros [|i] v' N; [discriminate|eauto].
  Qed.

  (** what the tree gives before the last check, and the interval there *)
  Lemma tree_step left t p : disjoint_at vs left (snd p) -> tree_of vs left t -> pairwise t -> ordered (snd p) t ->
    exists o, find_from vs 0 left p = Ok o /\
    match t_range (mkSo None p p) t with
    | None => o = None
    | Some e => exists k v b, so_left e = Some k /\ nth_error left k = Some (Some v) /\ i_contains vs v p = Ok b /\ o = if b then Some k else None
    end.
  Proof.
    intros [D1 D2] [T1 T2] P O. destruct (ordered_of P O) as (S & _ & X).
    destruct (@find_from_spec p left) with (k := 0%nat) as (o & F & FO).
    { intros v I. apply In_nth_error in I as (k & N). destruct (D1 k v N) as (_ & xl & xr & R & LE). destruct (contains_ok R LE) as (b & C & _). eauto. }
    exists o. split; auto. pose proof (range_x S X) as RG. destruct (t_range _ t) as [e|].
    - destruct RG as (I & L & MX). destruct (T2 e I) as (k & v & N & FI). destruct (from_interval_ok FI) as [SL XA]. destruct (D1 k v N) as (K & xl & xr & R & LE).
      assert (XL : so_x e (snd p) = xl) by (destruct R as [R _]; rewrite XA in R; congruence). rewrite XL in *.
      destruct (contains_ok R LE) as (b & C & B). exists k, v, b. rewrite SL, K. split; [reflexivity|]. rewrite <- K. split; auto. split; auto.
      destruct o as [j|].
      + destruct FO as (i & v' & -> & N' & C'). cbn [Nat.add].
        destruct (D1 i v' N') as (K' & xl' & xr' & R' & LE'). destruct (contains_ok R' LE') as (b' & C'' & B').
        assert (b' = true) by congruence. subst b'. destruct (proj1 B' eq_refl) as [G1 G2].
        destruct (T1 i v' N') as (e' & I' & FI'). destruct (from_interval_ok FI') as [_ XA'].
        assert (XL' : so_x e' (snd p) = xl') by (destruct R' as [R' _]; rewrite XA' in R'; congruence).
        specialize (MX e' I'). rewrite XL' in MX. specialize (MX G1).
        destruct (Nat.eq_dec k i) as [->|NE].
        * assert (v' = v) by congruence. subst v'. assert (b = true) by congruence. subst b. reflexivity.
        * exfalso. destruct (D2 k v i v' xl xr xl' xr' N N' NE R R'); lra.
      + destruct b; [|reflexivity]. rewrite (FO k v N) in C. discriminate.
    - destruct o as [j|]; [|reflexivity]. exfalso. destruct FO as (i & v' & -> & N' & C').
      destruct (D1 i v' N') as (_ & xl' & xr' & R' & LE'). destruct (contains_ok R' LE') as (b' & C'' & B').
      assert (b' = true) by congruence. subst b'. destruct (proj1 B' eq_refl) as [G1 G2].
      destruct (T1 i v' N') as (e' & I' & FI'). destruct (from_interval_ok FI') as [_ XA'].
      assert (XL' : so_x e' (snd p) = xl') by (destruct R' as [R' _]; rewrite XA' in R'; congruence).
      specialize (RG e' I'). rewrite XL' in RG. lra.
  Qed.
  Lemma at_ok {A} (l : list A) i x : nth_error l i = Some x -> at_ l i = Ok x.
  Proof. intros E. unfold at_. rewrite E. reflexivity. Qed.
  Lemma new_query p : so_new None p p = Ok (mkSo None p p).
  Proof. unfold so_new. replace (Qle_bool _ _) with true; [reflexivity|]. symmetry. apply Qle_bool_iff. lra. Qed.

  Theorem find_ok left t p : disjoint_at vs left (snd p) -> tree_of vs left t -> pairwise t -> ordered (snd p) t ->
    find_btree vs false left t p = find_from vs 0 left p.
  Proof.
    intros D T P O. destruct (tree_step D T P O) as (o & F & S). rewrite F. unfold find_btree. rewrite new_query. cbn [bind].
    destruct (t_range _ t) as [e|]; [|subst o; reflexivity]. destruct S as (k & v & b & SL & N & C & ->). rewrite SL. cbn [bind].
    rewrite (at_ok N). cbn [bind]. rewrite C. cbn [bind]. destruct b; reflexivity.
  Qed.
  Theorem find_debug left t p k v : disjoint_at vs left (snd p) -> tree_of vs left t -> pairwise t -> ordered (snd p) t ->
    nth_error left k = Some (Some v) -> i_contains vs v p = Ok true -> find_btree vs true left t p = Ok (Some k) /\ find_from vs 0 left p = Ok (Some k).
  Proof.
    intros D T P O N C. destruct (tree_step D T P O) as (o & F & S).
    assert (OK : o = Some k).
    { destruct (@find_from_spec p left) with (k := 0%nat) as (o' & F' & FO).
      { intros v' I. apply In_nth_error in I as (i & N'). destruct D as [D1 _]. destruct (D1 i v' N') as (_ & xl & xr & R & LE). destruct (contains_ok R LE) as (b & C' & _). eauto. }
      assert (o' = o) by congruence. subst o'. destruct o as [j|].
      - destruct FO as (i & v' & -> & N' & C'). cbn [Nat.add]. f_equal. destruct (Nat.eq_dec i k) as [|NE]; auto. exfalso. destruct D as [D1 D2].
        destruct (D1 i v' N') as (_ & xl' & xr' & R' & LE'). destruct (D1 k v N) as (_ & xl & xr & R & LE).
        destruct (contains_ok R' LE') as (b' & E' & B'). destruct (contains_ok R LE) as (b & E & B).
        assert (b' = true) by congruence. assert (b = true) by congruence. subst b b'. destruct (proj1 B eq_refl), (proj1 B' eq_refl).
        destruct (D2 i v' k v xl' xr' xl xr N' N NE R' R); lra.
      - rewrite (FO k v N) in C. discriminate. }
    subst o. split; auto. unfold find_btree. rewrite new_query. cbn [bind]. rewrite (sanity_ok P O). cbn [bind].
    destruct (t_range _ t) as [e|]; [|discriminate]. destruct S as (k' & v' & b & SL & N' & C' & E). destruct b; [|discriminate]. injection E as <-.
    rewrite SL, F. cbn [bind]. rewrite Nat.eqb_refl. cbn [assert bind]. rewrite (at_ok N'). cbn [bind]. rewrite C'. reflexivity.
  Qed.
  Theorem find_outside left t p k v xl xr : disjoint_at vs left (snd p) -> tree_of vs left t -> pairwise t -> ordered (snd p) t ->
    nth_error left k = Some (Some v) -> reaches vs v (snd p) xl xr -> xl <= fst p -> find_from vs 0 left p = Ok None ->
    find_btree vs true left t p = Panic /\ find_btree vs false left t p = Ok None.
  Proof.
    intros D T P O N R L FN. split; [|rewrite (find_ok D T P O); auto].
    unfold find_btree. rewrite new_query. cbn [bind]. rewrite (sanity_ok P O). cbn [bind]. rewrite FN. cbn [bind].
    destruct (tree_step D T P O) as (o & F & S). destruct (ordered_of P O) as (SP & _ & X). pose proof (range_x SP X) as RG.
    destruct (t_range _ t) as [e|].
    - destruct S as (k' & v' & b & SL & _). rewrite SL. reflexivity.
    - exfalso. destruct T as [T1 _]. destruct (T1 k v N) as (e & I & FI). destruct (from_interval_ok FI) as [_ XA]. destruct R as [R _]. rewrite XA in R.
      injection R as <-. specialize (RG e I). lra.
  Qed.

  (** The delayed construction *)
  Inductive keys : list (option (interval M)) -> list sorter -> Prop :=
  | keys_nil : keys [] []
  | keys_none l ss : keys l ss -> keys (None :: l) ss
  | keys_some v s l ss : from_interval vs v = Ok s -> keys l ss -> keys (Some v :: l) (s :: ss).
  Lemma keys_fold y l ss t : keys l ss -> pairwise (ss ++ t) -> NoDup ss -> (forall s, In s ss -> ~ In s t /\ spans s y) -> ordered y t ->
    exists t', foldM (fun t o => match o with None => Ok t | Some v => let* s := from_interval vs v in Ok (snd (t_insert s t)) end) l t = Ok t' /\
      ordered y t' /\ (forall s, In s t' <-> In s ss \/ In s t).
  Proof.
    intros K. revert t. induction K as [|l ss K IH|v s l ss FI K IH]; intros t P N S O.
    - exists t. split; [reflexivity|]. split; auto. cbn. intuition.
    - exact (IH t P N S O).
    - cbn [foldM bind]. rewrite FI. cbn [bind]. cbn [app] in P. inversion N as [|? ? NI N']; subst.
      destruct (@insert_ok y s t) as (t1 & E & O1 & I1); auto.
      { intros a b A B. apply P; [destruct A|destruct B]; cbn; rewrite ?in_app_iff; auto. }
      { apply S. now left. } { apply S. now left. }
      rewrite E. cbn [snd bind]. destruct (IH t1) as (t' & E' & O' & I'); auto.
      + intros a b A B. apply P; [apply in_app_iff in A|apply in_app_iff in B]; cbn; rewrite in_app_iff; rewrite I1 in *; intuition.
      + intros e I. destruct (S e (or_intror I)) as [NT SP]. split; auto. rewrite I1. intros [->|C]; auto.
      + exists t'. split; auto. split; auto. intros e. rewrite I', I1. cbn. intuition.
  Qed.
  Lemma keys_exist l : (forall v, In (Some v) l -> exists s, from_interval vs v = Ok s) -> exists ss, keys l ss.
  Proof.
    induction l as [|[v|] l IH]; intros H; [exists []; constructor| |]; destruct IH as (ss & K); try (intros; apply H; now right).
    - destruct (H v (or_introl eq_refl)) as (s & E). exists (s :: ss). constructor; auto.
    - exists ss. constructor. auto.
  Qed.
  Lemma keys_in l ss : keys l ss -> forall s, In s ss <-> exists k v, nth_error l k = Some (Some v) /\ from_interval vs v = Ok s.
  Proof.
    induction 1 as [|l ss K IH|v s l ss FI K IH]; intros e.
    - split; [intros []|]. intros ([|k] & v & E & _); discriminate.
    - rewrite IH. split; [intros (k & v & N & F); exists (S k), v; auto|]. intros ([|k] & v & N & F); [discriminate|]. exists k, v. auto.
    - cbn [In]. rewrite IH. split.
      + intros [<-|(k & v' & N & F)]; [exists 0%nat, v; auto|exists (S k), v'; auto].
      + intros ([|k] & v' & N & F); [left|right; exists k, v'; auto]. cbn in N. congruence.
  Qed.
  Lemma keys_nodup l ss : keys l ss ->
    (forall k v k' v', nth_error l k = Some (Some v) -> nth_error l k' = Some (Some v') -> snd (i_left v) = snd (i_left v') -> k = k') -> NoDup ss.
  Proof.
    induction 1 as [|l ss K IH|v s l ss FI K IH]; intros H.
    - constructor.
    - apply IH. intros k v k' v' N N' E. apply (f_equal pred (H (S k) v (S k') v' N N' E)).
    - constructor.
      + intros I. apply (keys_in K) in I as (k & v' & N & F). destruct (from_interval_ok FI) as [A _]. destruct (from_interval_ok F) as [B _].
        assert (E : snd (i_left v) = snd (i_left v')) by congruence. discriminate (H 0%nat v (S k) v' eq_refl N E).
      + apply IH. intros k v1 k' v' N N' E. apply (f_equal pred (H (S k) v1 (S k') v' N N' E)).
  Qed.
  Theorem init_ok left y :
    (forall k v, nth_error left k = Some (Some v) -> k = snd (i_left v) /\ exists s, from_interval vs v = Ok s /\ spans s y) ->
    (forall k v s k' v' s', nth_error left k = Some (Some v) -> nth_error left k' = Some (Some v') -> k <> k' ->
       from_interval vs v = Ok s -> from_interval vs v' = Ok s' -> apart s s') ->
    exists t, init_btree vs left = Ok t /\ tree_of vs left t /\ pairwise t /\ ordered y t.
  Proof.
    intros H A. destruct (@keys_exist left) as (ss & K).
    { intros v I. apply In_nth_error in I as (k & N). destruct (H k v N) as (_ & s & F & _). eauto. }
    assert (P : pairwise ss).
    { intros a b I J NE. apply (keys_in K) in I as (k & v & N & F). apply (keys_in K) in J as (k' & v' & N' & F').
      apply (A k v a k' v' b N N'); auto. intros ->. apply NE. congruence. }
    destruct (@keys_fold y left ss [] K) as (t & E & O & I).
    - rewrite app_nil_r. exact P.
    - apply (keys_nodup K). intros k v k' v' N N' E. destruct (H k v N) as [-> _]. destruct (H k' v' N') as [-> _]. auto.
    - intros s J. split; [intros []|]. apply (keys_in K) in J as (k & v & N & F). destruct (H k v N) as (_ & s' & F' & SP). congruence.
    - split; [intros s []|]. split; constructor.
    - exists t. split; [exact E|]. split; [split|split].
      + intros k v N. destruct (H k v N) as (_ & s & F & _). exists s. split; auto. apply I. left. apply (keys_in K). eauto.
      + intros s J. apply (keys_in K). apply I in J as [J|[]]. exact J.
      + intros a b J J'. apply P; [apply I in J as [J|[]]|apply I in J' as [J'|[]]]; auto.
      + exact O.
  Qed.
End Find.

Section Step.
  Variable vs : list (pt * nat).
  Variable M : mono.
  Implicit Types (v : interval M) (x : status M * option (list sorter)).

  Theorem insert_step dbg y x v : in_step vs y x -> (dbg = true -> i_sanity v = Ok tt) ->
    nth_error (s_left (fst x)) (snd (i_left v)) = Some None -> (snd (i_right v) < length (s_right (fst x)))%nat ->
    (forall t, snd x = Some t -> exists s, from_interval vs v = Ok s /\ spans s y /\ forall e, In e t -> apart s e) ->
    exists t, bt_insert vs dbg x v = Ok (mkS (upd (s_left (fst x)) (snd (i_left v)) (Some v)) (upd (s_right (fst x)) (snd (i_right v)) (Some (snd (i_left v)))), t) /\
      (t = None <-> snd x = None) /\
      in_step vs y (mkS (upd (s_left (fst x)) (snd (i_left v)) (Some v)) (upd (s_right (fst x)) (snd (i_right v)) (Some (snd (i_left v)))), t).
  Proof.
    destruct x as [[l r] ot]. cbn [fst snd s_left s_right]. intros [K T] DB FREE RR NEW.
    assert (LL : (snd (i_left v) < length l)%nat) by (apply nth_error_Some; congruence).
    assert (INS : s_insert false (mkS l r) v = Ok (mkS (upd l (snd (i_left v)) (Some v)) (upd r (snd (i_right v)) (Some (snd (i_left v)))))).
    { unfold s_insert, set_at. cbn [s_left s_right bind]. apply Nat.ltb_lt in RR, LL. rewrite RR, LL. reflexivity. }
    assert (DBG : (if dbg then i_sanity v else Ok tt) = Ok tt) by (destruct dbg; auto).
    cbn [fst snd s_left] in K, T.
    assert (K' : forall k w, nth_error (upd l (snd (i_left v)) (Some v)) k = Some (Some w) -> k = snd (i_left w)).
    { intros k w N. destruct (Nat.eq_dec (snd (i_left v)) k) as [E|E]; [subst k; rewrite nth_error_upd_eq in N by auto; congruence|rewrite nth_error_upd_ne in N; auto]. }
    unfold bt_insert. rewrite DBG. cbn [bind fst snd]. destruct ot as [t|].
    - destruct (NEW t eq_refl) as (s & FI & SP & AP). destruct (T t eq_refl) as ([T1 T2] & P & O). rewrite FI. cbn [bind].
      destruct (@insert_ok y s t) as (t' & E & O' & I); auto.
      { intros a b [<-|A] [<-|B] NE; [congruence|auto|apply apart_sym; auto|apply P; auto]. }
      { intros C. apply (AP s C (so_x s y) y); apply x_on_edge; auto. }
      rewrite E. cbn [assert bind]. rewrite INS. cbn [bind]. exists (Some t'). split; [reflexivity|]. split; [split; discriminate|]. split; [exact K'|].
      cbn [fst snd s_left]. intros t0 E0. injection E0 as <-. split; [split|split; auto].
      + intros k w N. destruct (Nat.eq_dec (snd (i_left v)) k) as [EQ|EQ].
        * subst k. rewrite nth_error_upd_eq in N by auto. injection N as <-. exists s. split; auto. apply I. auto.
        * rewrite nth_error_upd_ne in N by auto. destruct (T1 k w N) as (s' & I' & F'). exists s'. split; auto. apply I. auto.
      + intros e J. apply I in J as [->|J].
        * exists (snd (i_left v)), v. split; auto. apply nth_error_upd_eq. auto.
        * destruct (T2 e J) as (k & w & N & F). exists k, w. split; auto. rewrite nth_error_upd_ne; auto. intros EQ. subst k. congruence.
      + intros a b A B NE. apply I in A, B. destruct A as [->|A], B as [->|B]; [congruence|auto|apply apart_sym; auto|apply P; auto].
    - cbn [bind]. rewrite INS. cbn [bind]. exists None. split; [reflexivity|]. split; [tauto|]. split; [exact K'|]. intros t E0. discriminate.
  Qed.

  (** the tree after the removal of a stored interval *)
  Lemma removed y l t k v s : (forall k v, nth_error l k = Some (Some v) -> k = snd (i_left v)) -> tree_of vs l t -> pairwise t -> ordered y t ->
    nth_error l k = Some (Some v) -> from_interval vs v = Ok s ->
    exists t', t_remove s t = (true, t') /\ tree_of vs (upd l k None) t' /\ pairwise t' /\ ordered y t'.
  Proof.
    intros K [T1 T2] P O N FI. assert (LL : (k < length l)%nat) by (apply nth_error_Some; congruence).
    assert (IS : In s t) by (destruct (T1 k v N) as (s' & I & F); congruence).
    destruct (remove_ok P O IS) as (t' & E & O' & I). exists t'. split; auto. split; [split|split; auto].
    - intros k' w N'. destruct (Nat.eq_dec k k') as [EQ|EQ]; [subst k'; rewrite nth_error_upd_eq in N' by auto; discriminate|]. rewrite nth_error_upd_ne in N' by auto.
      destruct (T1 k' w N') as (s' & I' & F'). exists s'. split; auto. apply I. split; auto. intros ->.
      destruct (from_interval_ok FI) as [A _]. destruct (from_interval_ok F') as [B _]. apply EQ. rewrite (K k v N), (K k' w N'). congruence.
    - intros e J. apply I in J as [J NE]. destruct (T2 e J) as (k' & w & N' & F). exists k', w. split; auto. rewrite nth_error_upd_ne; auto.
      intros EQ. subst k'. apply NE. congruence.
    - intros a b A B. apply I in A as [A _]. apply I in B as [B _]. apply P; auto.
  Qed.
  Lemma kept l k : (forall k v, nth_error l k = Some (Some v) -> k = snd (i_left v)) -> forall k' v, nth_error (upd l k None) k' = Some (Some v) -> k' = snd (i_left v).
  Proof.
    intros K k' v N. destruct (Nat.eq_dec k k') as [EQ|EQ]; [|rewrite nth_error_upd_ne in N; auto]. subst k'.
    destruct (Nat.lt_ge_cases k (length l)) as [L|L].
    - rewrite nth_error_upd_eq in N by auto. discriminate N.
    - assert (C : nth_error (upd l k None) k = None) by (apply nth_error_None; rewrite upd_length; auto). congruence.
  Qed.
  Theorem remove_left_step y x k v : in_step vs y x -> nth_error (s_left (fst x)) k = Some (Some v) -> (snd (i_right v) < length (s_right (fst x)))%nat ->
    exists t, bt_remove_left vs x k = Ok (Some (v, (mkS (upd (s_left (fst x)) k None) (upd (s_right (fst x)) (snd (i_right v)) None), t))) /\
      (t = None <-> snd x = None) /\ in_step vs y (mkS (upd (s_left (fst x)) k None) (upd (s_right (fst x)) (snd (i_right v)) None), t).
  Proof.
    destruct x as [[l r] ot]. cbn [fst snd s_left s_right]. intros [K T] N RR. cbn [fst snd s_left] in K, T. unfold bt_remove_left. cbn [fst snd s_left s_right]. rewrite N.
    unfold set_at. apply Nat.ltb_lt in RR. rewrite RR. destruct ot as [t|].
    - destruct (T t eq_refl) as ([T1 T2] & P & O). destruct (T1 k v N) as (s & _ & FI). rewrite FI. cbn [bind].
      destruct (removed K (conj T1 T2) P O N FI) as (t' & E & T' & P' & O'). rewrite E. cbn [assert bind]. exists (Some t'). split; [reflexivity|].
      split; [split; discriminate|]. split; [cbn [fst s_left]; apply kept; auto|]. cbn [fst snd s_left]. intros t0 E0. injection E0 as <-. auto.
    - cbn [bind assert]. exists None. split; [reflexivity|]. split; [tauto|]. split; [cbn [fst s_left]; apply kept; auto|]. intros t E0. discriminate.
  Qed.
  Theorem remove_right_step y x key k v : in_step vs y x -> nth_error (s_right (fst x)) key = Some (Some k) -> nth_error (s_left (fst x)) k = Some (Some v) ->
    exists t, bt_remove_right vs x key = Ok (Some v, (mkS (upd (s_left (fst x)) k None) (upd (s_right (fst x)) key None), t)) /\
      (t = None <-> snd x = None) /\ in_step vs y (mkS (upd (s_left (fst x)) k None) (upd (s_right (fst x)) key None), t).
  Proof.
    destruct x as [[l r] ot]. cbn [fst snd s_left s_right]. intros [K T] NR N. cbn [fst snd s_left] in K, T. unfold bt_remove_right. cbn [fst snd s_left s_right].
    rewrite (at_ok NR). cbn [bind]. rewrite N. destruct ot as [t|].
    - destruct (T t eq_refl) as ([T1 T2] & P & O). destruct (T1 k v N) as (s & _ & FI). rewrite FI. cbn [bind].
      destruct (removed K (conj T1 T2) P O N FI) as (t' & E & T' & P' & O'). rewrite E. cbn [snd bind]. exists (Some t'). split; [reflexivity|].
      split; [split; discriminate|]. split; [cbn [fst s_left]; apply kept; auto|]. cbn [fst snd s_left]. intros t0 E0. injection E0 as <-. auto.
    - cbn [bind]. exists None. split; [reflexivity|]. split; [tauto|]. split; [cbn [fst s_left]; apply kept; auto|]. intros t E0. discriminate.
  Qed.
End Step.
