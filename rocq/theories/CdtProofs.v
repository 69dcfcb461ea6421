(** Proofs about the choice of triangles: angles around a vertex, and walking around it. *)
From Coq Require Import List Arith Bool ZArith Reals Lra Lia.
From Verif Require Import Base DVec Mesh MeshMore Tess Cdt Spec TriSpec TriFacts CdtSpec.
Import ListNotations.
Set Implicit Arguments.
Unset Strict Implicit.
Local Open Scope R_scope.

(** ** Angles *)
Lemma sq_pos x y : x <> 0 \/ y <> 0 -> 0 < x * x + y * y.
Proof. intros [H|H]; pose proof (Rsqr_pos_lt _ H) as P; unfold Rsqr in P; [pose proof (Rle_0_sqr y) as Q|pose proof (Rle_0_sqr x) as Q]; unfold Rsqr in Q; lra. Qed.
Lemma atan2_ok y x : 0 < x * x + y * y -> let l := sqrt (x * x + y * y) in
  - PI <= r_atan2 y x <= PI /\ l * cos (r_atan2 y x) = x /\ l * sin (r_atan2 y x) = y.
Proof.
  intros P l. assert (L : 0 < l) by (apply sqrt_lt_R0; auto). assert (LL : l * l = x * x + y * y) by (apply sqrt_sqrt; lra).
  assert (B : -1 <= x / l <= 1).
  { assert (X2 : x * x <= l * l) by (pose proof (Rle_0_sqr y) as Q; unfold Rsqr in Q; lra).
    assert (X3 : - l <= x <= l) by (split; apply Rnot_lt_le; intros C; nra).
    split; [apply Rmult_le_reg_r with l|apply Rmult_le_reg_r with l]; auto; unfold Rdiv; rewrite Rmult_assoc, Rinv_l by lra; lra. }
  pose proof (acos_bound (x / l)) as AB. pose proof (cos_acos _ B) as CA. pose proof (sin_acos _ B) as SA.
  assert (S : l * sqrt (1 - (x / l)²) = Rabs y).
  { rewrite <- sqrt_Rsqr_abs. replace (Rsqr y) with ((l * l) * (1 - (x / l)²)) by (unfold Rsqr; field_simplify; [|lra]; lra).
    rewrite sqrt_mult_alt by nra. rewrite sqrt_square by lra. reflexivity. }
  unfold r_atan2. fold l. destruct (Rle_dec 0 y) as [Y|Y].
  - split; [pose proof PI_RGT_0; lra|]. rewrite CA, SA, S, Rabs_right by lra. split; [field; lra|reflexivity].
  - split; [pose proof PI_RGT_0; lra|]. rewrite cos_neg, sin_neg, CA, SA. split; [field; lra|]. rewrite <- Ropp_mult_distr_r, S, Rabs_left by lra. lra.
Qed.
(** the angle from [x] to [p], seen from [o], in a full turn *)
Definition turn_to eps (o x p : R * R) : R := wrap_angle (angle_tri eps o x p).
Definition far eps (o x : R * R) : Prop :=
  0 < eps /\ eps <= sqrt ((fst x - fst o) * (fst x - fst o) + (snd x - snd o) * (snd x - snd o)).
Lemma far_pos eps o x : far eps o x -> 0 < sqrt ((fst x - fst o) * (fst x - fst o) + (snd x - snd o) * (snd x - snd o)).
Proof. intros [A B]. lra. Qed.
Lemma turn_ok eps o x p : far eps o x -> far eps o p ->
  exists k, 0 < k /\ 0 <= turn_to eps o x p < 2 * PI /\
    k * cos (turn_to eps o x p) = (fst x - fst o) * (fst p - fst o) + (snd x - snd o) * (snd p - snd o) /\ k * sin (turn_to eps o x p) = ccw2 o x p.
Proof.
  intros FX FP. pose proof (far_pos FX) as LX. pose proof (far_pos FP) as LP. destruct FX as [E FX], FP as [_ FP].
  unfold turn_to, angle_tri, angle_between, ccw2. cbn [fst snd].
  set (a := fst x - fst o) in *. set (b := snd x - snd o) in *. set (c := fst p - fst o) in *. set (d := snd p - snd o) in *.
  destruct (Rlt_dec (Rabs (sqrt (a * a + b * b) - 0)) eps) as [C|_]; [rewrite Rminus_0_r, Rabs_right in C by lra; lra|].
  destruct (Rlt_dec (Rabs (sqrt (c * c + d * d) - 0)) eps) as [C|_]; [rewrite Rminus_0_r, Rabs_right in C by lra; lra|].
  assert (PX : 0 < a * a + b * b) by (destruct (Rlt_le_dec 0 (a * a + b * b)); auto; rewrite sqrt_neg_0 in LX by auto; lra).
  assert (PP : 0 < c * c + d * d) by (destruct (Rlt_le_dec 0 (c * c + d * d)); auto; rewrite sqrt_neg_0 in LP by auto; lra).
  assert (P : 0 < (a * c + b * d) * (a * c + b * d) + (a * d - b * c) * (a * d - b * c)).
  { replace ((a * c + b * d) * (a * c + b * d) + (a * d - b * c) * (a * d - b * c)) with ((a * a + b * b) * (c * c + d * d)) by ring. apply Rmult_lt_0_compat; auto. }
  destruct (atan2_ok P) as (B & CO & SI). exists (sqrt ((a * c + b * d) * (a * c + b * d) + (a * d - b * c) * (a * d - b * c))).
  split; [apply sqrt_lt_R0; auto|]. unfold wrap_angle. pose proof PI_RGT_0. destruct (Rlt_dec (r_atan2 (a * d - b * c) (a * c + b * d)) 0) as [N|N].
  - split; [lra|]. replace (r_atan2 (a * d - b * c) (a * c + b * d) + PI * 2) with (r_atan2 (a * d - b * c) (a * c + b * d) + 2 * INR 1 * PI) by (cbn; lra).
    rewrite cos_period, sin_period. auto.
  - split; [lra|]. auto.
Qed.
Lemma zero_turn z : 0 <= z < 2 * PI -> sin z = 0 -> 0 < cos z -> z = 0.
Proof.
  intros B S C. destruct (Req_dec z 0) as [|N]; auto. exfalso. destruct (Rtotal_order z PI) as [L|[E|G]].
  - assert (0 < sin z) by (apply sin_gt_0; lra). lra.
  - rewrite E, cos_PI in C. lra.
  - assert (sin z < 0) by (apply sin_lt_0; lra). lra.
Qed.
Lemma turn_self eps o p : far eps o p -> turn_to eps o p p = 0.
Proof.
  intros F. destruct (turn_ok F F) as (k & K & B & C & S). apply zero_turn; auto.
  - apply Rmult_eq_reg_l with k; [|lra]. rewrite S. unfold ccw2. ring.
  - apply Rmult_lt_reg_l with k; auto. rewrite Rmult_0_r, C. apply sq_pos. destruct F as [E F]. destruct (Req_dec (fst p - fst o) 0) as [X|X]; auto. destruct (Req_dec (snd p - snd o) 0) as [Y|Y]; auto.
    exfalso. rewrite X, Y in F. replace (0 * 0 + 0 * 0) with 0 in F by ring. rewrite sqrt_0 in F. lra.
Qed.
Lemma turn_diff eps o x y p : far eps o x -> far eps o y -> far eps o p ->
  exists k, 0 < k /\ ccw2 o x y = k * sin (turn_to eps o x p - turn_to eps o y p).
Proof.
  intros FX FY FP. destruct (turn_ok FX FP) as (k & K & _ & C & S), (turn_ok FY FP) as (k' & K' & _ & C' & S').
  destruct (turn_ok FP FP) as (kp & KP & _ & CP & SP). rewrite (turn_self FP), cos_0 in CP. rewrite sin_minus.
  exists (k * k' / kp). split; [apply Rdiv_lt_0_compat; auto; apply Rmult_lt_0_compat; auto|].
  apply Rmult_eq_reg_l with kp; [|lra].
  replace (kp * (k * k' / kp * (sin (turn_to eps o x p) * cos (turn_to eps o y p) - cos (turn_to eps o x p) * sin (turn_to eps o y p))))
    with ((k * sin (turn_to eps o x p)) * (k' * cos (turn_to eps o y p)) - (k * cos (turn_to eps o x p)) * (k' * sin (turn_to eps o y p))) by (field; lra).
  rewrite C, S, C', S'. replace kp with (kp * 1) by ring. rewrite CP. unfold ccw2. ring.
Qed.
Lemma sin_pos z : - (2 * PI) < z < 2 * PI -> 0 < sin z -> 0 < z < PI \/ z < - PI.
Proof.
  intros B S. pose proof PI_RGT_0. destruct (Rlt_le_dec z (- PI)) as [|L1]; auto. left.
  destruct (Rlt_le_dec 0 z) as [P|P].
  - split; auto. destruct (Rlt_le_dec z PI) as [|G]; auto. exfalso. destruct (Req_dec z PI) as [E|N]; [rewrite E, sin_PI in S; lra|].
    assert (sin z < 0) by (apply sin_lt_0; lra). lra.
  - exfalso. assert (0 <= sin (- z)) by (apply sin_ge_0; lra). rewrite sin_neg in *. lra.
Qed.
(** turning counter-clockwise by less than a half turn without passing [p] *)
Lemma turn_step eps o x y p : far eps o x -> far eps o y -> far eps o p -> 0 < ccw2 o x y ->
  y = p \/ ~ (0 <= ccw2 o x p /\ 0 <= ccw2 o p y) -> turn_to eps o y p < turn_to eps o x p < turn_to eps o y p + PI.
Proof.
  intros FX FY FP P H. destruct (turn_diff FX FY FP) as (k & K & E). rewrite E in P.
  assert (S : 0 < sin (turn_to eps o x p - turn_to eps o y p)) by (apply Rmult_lt_reg_l with k; lra).
  destruct (turn_ok FX FP) as (kx & KX & BX & _ & SX). destruct (turn_ok FY FP) as (ky & KY & BY & _ & SY).
  apply sin_pos in S as [S|S]; [lra| |lra]. exfalso. destruct H as [-> |H].
  - rewrite (turn_self FP) in *. pose proof PI_RGT_0. lra.
  - apply H. split.
    + rewrite <- SX. apply Rmult_le_pos; [lra|]. apply sin_ge_0; lra.
    + replace (ccw2 o p y) with (- ccw2 o y p) by (unfold ccw2; ring). rewrite <- SY.
      assert (0 <= sin (turn_to eps o y p - PI)) by (apply sin_ge_0; lra). rewrite sin_minus, sin_PI, cos_PI in *. 
      assert (ky * sin (turn_to eps o y p) <= 0) by (replace 0 with (ky * 0) by ring; apply Rmult_le_compat_l; lra). lra.
Qed.
Lemma turn_wedge eps o x y q p : far eps o x -> far eps o y -> far eps o q -> far eps o p ->
  turn_to eps o y p <= turn_to eps o q p <= turn_to eps o x p -> turn_to eps o x p < turn_to eps o y p + PI ->
  0 <= ccw2 o x q /\ 0 <= ccw2 o q y.
Proof.
  intros FX FY FQ FP B L. destruct (turn_diff FX FQ FP) as (k & K & ->), (turn_diff FQ FY FP) as (k' & K' & ->).
  split; apply Rmult_le_pos; try lra; apply sin_ge_0; lra.
Qed.

(** ** Directed edges *)
Local Open Scope nat_scope.
Notation edges_of := (flat_map (@tri_edges nat)).
Definition pair_dec (p q : nat * nat) : {p = q} + {p <> q}.
Proof. decide equality; apply Nat.eq_dec. Defined.
Lemma cnt_in es a b : NoDup es -> cnt es a b = if in_dec pair_dec (a, b) es then 1%Z else 0%Z.
Proof.
  unfold cnt. induction es as [|[x y] es IH]; intros ND; [reflexivity|]. inversion ND as [|? ? NI ND']; subst. specialize (IH ND').
  cbn [filter fst snd]. destruct ((x =? a) && (y =? b)) eqn:E.
  - apply andb_true_iff in E as [E1 E2]. apply Nat.eqb_eq in E1, E2. subst. destruct (in_dec _ (a, b) es) as [I|_]; [contradiction|].
    destruct (in_dec _ (a, b) ((a, b) :: es)) as [_|N]; [|destruct N; left; auto]. cbn [length]. lia.
  - rewrite IH. destruct (in_dec _ (a, b) es) as [I|N]; destruct (in_dec _ (a, b) ((x, y) :: es)) as [I'|N']; auto.
    + destruct N'. right. auto.
    + destruct I' as [I'|I']; [|contradiction]. injection I' as -> ->. rewrite !Nat.eqb_refl in E. discriminate.
Qed.
Lemma edges_sub (T T' : list (nat * nat * nat)) : incl T T' -> incl (edges_of T) (edges_of T').
Proof. intros I e H. apply in_flat_map in H as (t & A & B). apply in_flat_map. exists t. auto. Qed.
Lemma nodup_app_l {A} (a b : list A) : NoDup (a ++ b) -> NoDup a /\ NoDup b /\ forall x, In x a -> ~ In x b.
Proof.
  induction a as [|x a IH]; cbn; intros H; [split; [constructor|split; auto]|]. inversion H as [|? ? N H']; subst. destruct (IH H') as (A1 & A2 & A3).
  split; [constructor; auto; intros C; apply N, in_or_app; auto|split; auto]. intros y [<-|I]; auto. intros C. apply N, in_or_app. auto.
Qed.
Lemma edges_filter keep D : NoDup (edges_of D) -> NoDup (edges_of (filter keep D)).
Proof.
  induction D as [|t D IH]; intros H; [constructor|]. cbn [flat_map] in H. apply nodup_app_l in H as (A & B & C). cbn [filter].
  destruct (keep t); auto. cbn [flat_map]. assert (G : forall l, NoDup (tri_edges t) -> NoDup l -> (forall x, In x (tri_edges t) -> ~ In x l) -> NoDup (tri_edges t ++ l)).
  { generalize (tri_edges t). clear. induction l as [|x a IH]; cbn; intros l NA NL X; auto. inversion NA; subst. constructor; auto. rewrite in_app_iff. intros [I|I]; auto. exact (X x (or_introl eq_refl) I). }
  apply G; auto. intros x I J. apply (C x I). eapply edges_sub; eauto. intros u. rewrite filter_In. tauto.
Qed.
Lemma edge_once D t t' e : NoDup (edges_of D) -> In t D -> In t' D -> In e (tri_edges t) -> In e (tri_edges t') -> t = t'.
Proof.
  induction D as [|u D IH]; intros H I I' E E'; [destruct I|]. cbn [flat_map] in H. apply nodup_app_l in H as (A & B & C).
  assert (X : forall w, In w D -> In e (tri_edges w) -> In e (edges_of D)) by (intros; apply in_flat_map; eauto).
  destruct I as [<-|I], I' as [<-|I']; auto; exfalso; eapply C; eauto.
Qed.
Lemma seen_edges t v x y : seen t v x y -> In (v, x) (tri_edges t) /\ In (x, y) (tri_edges t) /\ In (y, v) (tri_edges t).
Proof. intros [-> |[-> | ->]]; cbn; auto 6. Qed.
Lemma edge_seen t v x : In (v, x) (tri_edges t) -> exists y, seen t v x y.
Proof. destruct t as [[a b] c]. unfold seen. cbn. intros [E|[E|[E|[]]]]; injection E as <- <-; eauto. Qed.
Lemma seen_turn t v x y : seen t v x y -> seen t x y v.
Proof. unfold seen. tauto. Qed.

(** the sides of the polygon 0, 1, ..., n - 1 *)
Lemma combine_shift (l : list nat) a d i : i < length l -> nth_error (combine l (tl l ++ [a])) i = Some (nth i l d, nth (S i) (l ++ [a]) d).
Proof.
  destruct l as [|x l]; cbn [length tl]; [lia|]. revert x i. induction l as [|y l IH]; intros x i H.
  - assert (i = 0) by (cbn in H; lia). subst. reflexivity.
  - destruct i as [|i]; [reflexivity|]. change (nth_error (combine (y :: l) (l ++ [a])) i = Some (nth i (y :: l) d, nth (S i) ((y :: l) ++ [a]) d)). apply IH. cbn in *. lia.
Qed.
Lemma sides_seq n a b : 0 < n -> (In (a, b) (poly_edges (seq 0 n)) <-> a < n /\ b = (a + 1) mod n).
Proof.
  intros N. assert (E : poly_edges (seq 0 n) = combine (seq 0 n) (tl (seq 0 n) ++ [0])) by (destruct n; [lia|reflexivity]). rewrite E.
  assert (X : forall i, i < n -> nth_error (combine (seq 0 n) (tl (seq 0 n) ++ [0])) i = Some (i, (i + 1) mod n)).
  { intros i I. rewrite (combine_shift 0 0) by (rewrite seq_length; auto). rewrite seq_nth by auto. f_equal. f_equal.
    destruct (Nat.eq_dec (S i) n) as [S|S].
    - rewrite app_nth2 by (rewrite seq_length; lia). rewrite seq_length, S, Nat.sub_diag. replace (i + 1) with n by lia. rewrite Nat.mod_same by lia. reflexivity.
    - rewrite app_nth1 by (rewrite seq_length; lia). rewrite seq_nth by lia. rewrite Nat.mod_small by lia. lia. }
  split.
  - intros I. apply In_nth_error in I as (i & I). assert (L : i < n).
    { assert (Q : nth_error (combine (seq 0 n) (tl (seq 0 n) ++ [0])) i <> None) by congruence. apply nth_error_Some in Q. rewrite combine_length, seq_length in Q. lia. }
    rewrite X in I by auto. injection I as <- <-. auto.
  - intros [A ->]. eapply nth_error_In. apply X. auto.
Qed.
Lemma fst_combine {A B} (l : list A) : forall k : list B, length l = length k -> map fst (combine l k) = l.
Proof. induction l as [|x l IH]; intros [|y k] H; cbn in *; try discriminate; auto. f_equal. auto. Qed.
Lemma sides_nodup n : NoDup (poly_edges (seq 0 n)).
Proof.
  destruct n as [|n]; [constructor|]. unfold poly_edges. cbn [seq]. apply (NoDup_map_inv fst).
  rewrite fst_combine by (rewrite app_length; cbn [length]; lia). apply (seq_NoDup (S n) 0).
Qed.

(** ** Walking around a vertex *)
Section Walk.
  Variables (eps : R) (ps : list (R * R)) (D : list (nat * nat * nat)) (keep : nat * nat * nat -> bool).
  Notation n := (length ps).
  Hypothesis CT : constrained ps D.
  Hypothesis KEEP : triangulates (seq 0 n) (filter keep D).
  Hypothesis E0 : (0 < eps)%R.
  Hypothesis FAR : spread eps ps.
  Hypothesis N3 : 3 <= n.
  Notation K := (filter keep D).
  Definition next v := (v + 1) mod n.
  Definition prev v := (v + n - 1) mod n.
  Lemma next_lt v : next v < n. Proof. apply Nat.mod_upper_bound. lia. Qed.
  Lemma prev_lt v : prev v < n. Proof. apply Nat.mod_upper_bound. lia. Qed.
  Lemma next_val v : v < n -> (S v < n /\ next v = S v) \/ (S v = n /\ next v = 0).
  Proof.
    intros H. unfold next. destruct (Nat.eq_dec (S v) n) as [E|E]; [right|left].
    - split; auto. replace (v + 1) with n by lia. apply Nat.mod_same. lia.
    - split; [lia|]. rewrite Nat.mod_small; lia.
  Qed.
  Lemma prev_val v : v < n -> (0 < v /\ prev v = v - 1) \/ (v = 0 /\ prev v = n - 1).
  Proof.
    intros H. unfold prev. destruct v as [|v]; [right|left].
    - split; auto. rewrite Nat.mod_small; lia.
    - split; [lia|]. replace (S v + n - 1) with (v + 1 * n) by lia. rewrite Nat.mod_add by lia. rewrite Nat.mod_small; lia.
  Qed.
  Lemma next_prev v : v < n -> next (prev v) = v.
  Proof. intros H. destruct (prev_val H), (next_val (prev_lt v)); lia. Qed.
  Lemma prev_next v : v < n -> prev (next v) = v.
  Proof. intros H. destruct (next_val H), (prev_val (next_lt v)); lia. Qed.
  Lemma next_prev_neq v : v < n -> next v <> prev v.
  Proof. intros H. destruct (next_val H), (prev_val H); lia. Qed.
  Lemma self_neq v : v < n -> next v <> v /\ prev v <> v.
  Proof. intros H. destruct (next_val H), (prev_val H); lia. Qed.

  Lemma K_sub t : In t K -> In t D. Proof. rewrite filter_In. tauto. Qed.
  Lemma net_K a b : net (edges_of K) a b = net (poly_edges (seq 0 n)) a b.
  Proof. exact (proj2 (triangulates_facts KEEP) a b). Qed.
  Lemma side_in a b : In (a, b) (poly_edges (seq 0 n)) <-> a < n /\ b = next a.
  Proof. apply sides_seq. lia. Qed.
  (** the triangle to the left of a side is inside, the one to the right is not *)
  Lemma side_left v : v < n -> In (v, next v) (edges_of K) /\ ~ In (next v, v) (edges_of K).
  Proof.
    intros H. pose proof (net_K v (next v)) as E. unfold net in E. rewrite !cnt_in in E by (try apply sides_nodup; apply edges_filter, (ct_once CT)).
    destruct (in_dec pair_dec (v, next v) (poly_edges (seq 0 n))) as [_|N]; [|destruct N; apply side_in; auto].
    destruct (in_dec pair_dec (next v, v) (poly_edges (seq 0 n))) as [I|_].
    { apply side_in in I as [_ I]. exfalso. apply (next_prev_neq H). rewrite I at 2. symmetry. apply prev_next, next_lt. }
    destruct (in_dec pair_dec (v, next v) (edges_of K)), (in_dec pair_dec (next v, v) (edges_of K)); try lia. auto.
  Qed.
  (** other edges have triangles inside on both sides or on none *)
  Lemma other_edge a b : b <> next a -> a <> next b -> In (a, b) (edges_of K) -> In (b, a) (edges_of K).
  Proof.
    intros H H' I. pose proof (net_K a b) as E. unfold net in E. rewrite !cnt_in in E by (try apply sides_nodup; apply edges_filter, (ct_once CT)).
    destruct (in_dec pair_dec (a, b) (poly_edges (seq 0 n))) as [X|_]; [apply side_in in X; lia|].
    destruct (in_dec pair_dec (b, a) (poly_edges (seq 0 n))) as [X|_]; [apply side_in in X; lia|].
    destruct (in_dec pair_dec (a, b) (edges_of K)) as [_|N]; [|contradiction]. destruct (in_dec pair_dec (b, a) (edges_of K)); auto; lia.
  Qed.
  Lemma K_seen v x : In (v, x) (edges_of K) -> exists t y, In t K /\ seen t v x y.
  Proof. intros I. apply in_flat_map in I as (t & A & B). apply edge_seen in B as (y & B). eauto. Qed.
  Lemma K_edges t v x y : In t K -> seen t v x y -> In (v, x) (edges_of K) /\ In (y, v) (edges_of K).
  Proof. intros I S. apply seen_edges in S as (A & _ & B). split; apply in_flat_map; eauto. Qed.
  Lemma D_edges t v x y : In t D -> seen t v x y -> In (v, x) (edges_of D) /\ In (y, v) (edges_of D).
  Proof. intros I S. apply seen_edges in S as (A & _ & B). split; apply in_flat_map; eauto. Qed.
  Lemma seen_lt t v x y : In t D -> seen t v x y -> v < n /\ x < n /\ y < n.
  Proof. intros I [-> |[-> | ->]]; apply (ct_index CT) in I; tauto. Qed.
  Lemma seen_ccw t v x y : In t D -> seen t v x y -> (0 < ccw2 (spot ps v) (spot ps x) (spot ps y))%R.
  Proof.
    intros I S. assert (R : forall a b c, ccw2 a b c = ccw2 b c a) by (intros; unfold ccw2; ring).
    destruct S as [-> |[-> | ->]]; apply (ct_ccw CT) in I; auto; [rewrite <- R|rewrite R, R in I || rewrite R]; auto; try (rewrite R; auto); try (rewrite <- R; auto).
  Qed.
  Lemma seen_neq t v x y : In t D -> seen t v x y -> x <> v /\ y <> v /\ x <> y.
  Proof. intros I S. pose proof (seen_ccw I S) as P. repeat split; intros ->; unfold ccw2 in P; lra. Qed.
  Lemma far_apart i j : i < n -> j < n -> i <> j -> far eps (spot ps i) (spot ps j).
  Proof. intros A B C. split; auto. Qed.
  (** the angle from the direction of [x] to the previous vertex, as seen from [v] *)
  Notation th v x := (turn_to eps (spot ps v) (spot ps x) (spot ps (prev v))).
  Lemma th_prev v : v < n -> th v (prev v) = 0%R.
  Proof. intros H. apply turn_self. apply far_apart; auto; [apply prev_lt|]. destruct (self_neq H). auto. Qed.
  Lemma th_pos v x : v < n -> x < n -> x <> v -> (0 <= th v x)%R.
  Proof.
    intros H X NE. destruct (@turn_ok eps (spot ps v) (spot ps x) (spot ps (prev v))) as (k & _ & B & _); [apply far_apart; auto|apply far_apart; auto; [apply prev_lt|destruct (self_neq H); auto]|]. lra.
  Qed.
  Lemma prev_joined v : v < n -> In (prev v, v) (edges_of D).
  Proof. intros H. destruct (side_left (prev_lt v)) as [A _]. rewrite (next_prev H) in A. eapply edges_sub; [|exact A]. intros t. apply K_sub. Qed.
  Lemma K_corner t v x y : In t K -> seen t v x y -> x <> prev v /\ y <> next v.
  Proof.
    intros I S. destruct (K_edges I S) as [A B]. destruct (seen_lt (K_sub I) S) as (V & X & Y). split; intros ->.
    - destruct (side_left (prev_lt v)) as [_ N]. rewrite (next_prev V) in N. auto.
    - destruct (side_left V). auto.
  Qed.
  Lemma K_step t v x y : In t K -> seen t v x y -> (th v y < th v x < th v y + PI)%R.
  Proof.
    intros I S. pose proof (K_sub I) as ID. destruct (seen_lt ID S) as (V & X & Y). destruct (seen_neq ID S) as (NX & NY & _). destruct (self_neq V) as [_ NP].
    apply turn_step; try (apply far_apart; auto; apply prev_lt).
    - apply seen_ccw with t; auto.
    - destruct (Nat.eq_dec y (prev v)) as [-> |NE]; auto. right. intros [A B]. destruct (ct_apart CT ID S (or_intror (prev_joined V)) A B) as [E|E]; [|congruence].
      destruct (K_corner I S) as [C _]. congruence.
  Qed.
  Definition above v x := length (filter (fun z => if Rlt_dec (th v x) (th v z) then true else false) (seq 0 n)).
  Definition below v x := length (filter (fun z => if Rlt_dec (th v z) (th v x) then true else false) (seq 0 n)).
  Lemma filter_less {A} (p q : A -> bool) l z : (forall u, p u = true -> q u = true) -> In z l -> p z = false -> q z = true -> length (filter p l) < length (filter q l).
  Proof.
    intros H. assert (LE : forall l, length (filter p l) <= length (filter q l)).
    { induction l0 as [|u l0 IH]; cbn; auto. destruct (p u) eqn:P; [rewrite (H u P); cbn; lia|]. destruct (q u); cbn; lia. }
    induction l as [|u l IH]; intros I P Q; [destruct I|]. cbn. destruct I as [-> |I].
    - rewrite P, Q. cbn. specialize (LE l). lia.
    - specialize (IH I P Q). destruct (p u) eqn:PU; [rewrite (H u PU); cbn; lia|]. destruct (q u); cbn; lia.
  Qed.
  Lemma above_less v x x' : x' < n -> (th v x < th v x')%R -> above v x' < above v x.
  Proof.
    intros X H. apply filter_less with x'.
    - intros u. destruct (Rlt_dec (th v x') (th v u)); [|discriminate]. destruct (Rlt_dec (th v x) (th v u)); auto. lra.
    - apply in_seq. lia.
    - destruct (Rlt_dec (th v x') (th v x')); auto. lra.
    - destruct (Rlt_dec (th v x) (th v x')); auto; lra.
  Qed.
  Lemma below_less v x x' : x' < n -> (th v x' < th v x)%R -> below v x' < below v x.
  Proof.
    intros X H. apply filter_less with x'.
    - intros u. destruct (Rlt_dec (th v u) (th v x')); [|discriminate]. destruct (Rlt_dec (th v u) (th v x)); auto. lra.
    - apply in_seq. lia.
    - destruct (Rlt_dec (th v x') (th v x')); auto. lra.
    - destruct (Rlt_dec (th v x') (th v x)); auto; lra.
  Qed.
  (** turning clockwise among the triangles inside ends at the next vertex *)
  Lemma K_bound v : v < n -> forall k x y t, above v x < k -> In t K -> seen t v x y -> (th v x <= th v (next v))%R.
  Proof.
    intros V. induction k as [|k IH]; intros x y t L I S; [lia|]. destruct (Nat.eq_dec x (next v)) as [-> |NE]; [lra|].
    destruct (K_corner I S) as [NP _]. destruct (K_edges I S) as [A _]. destruct (seen_lt (K_sub I) S) as (_ & X & _).
    assert (B : In (x, v) (edges_of K)).
    { apply other_edge; auto. intros C. apply NP. rewrite C. symmetry. apply prev_next; auto. }
    apply K_seen in B as (t' & x' & I' & S'). apply seen_turn in S'.
    pose proof (K_step I' S') as ST. destruct (seen_lt (K_sub I') S') as (_ & X' & _).
    specialize (IH x' x t'). pose proof (above_less X' (proj1 ST)). apply Rle_trans with (th v x'); [lra|]. apply IH; auto. lia.
  Qed.
  (** every edge between the next and the previous vertex, counter-clockwise, is met on the way *)
  Lemma K_cover v q : v < n -> q < n -> q <> v -> In (v, q) (edges_of D) \/ In (q, v) (edges_of D) ->
    forall k x y t, below v x < k -> In t K -> seen t v x y -> (th v q <= th v x)%R -> In (v, q) (edges_of K) \/ In (q, v) (edges_of K).
  Proof.
    intros V Q NQ J. induction k as [|k IH]; intros x y t L I S B; [lia|]. pose proof (K_step I S) as ST.
    destruct (seen_lt (K_sub I) S) as (_ & X & Y). destruct (seen_neq (K_sub I) S) as (NX & NY & _). destruct (K_edges I S) as [EA EB]. destruct (self_neq V) as [_ NP].
    destruct (Rle_dec (th v y) (th v q)) as [G|G].
    - destruct (@turn_wedge eps (spot ps v) (spot ps x) (spot ps y) (spot ps q) (spot ps (prev v))) as [W1 W2]; try (apply far_apart; auto; apply prev_lt); [lra|lra|].
      destruct (ct_apart CT (K_sub I) S J W1 W2) as [-> | ->]; auto.
    - assert (NE : y <> prev v) by (intros ->; rewrite (th_prev V) in G; pose proof (th_pos V Q NQ); lra).
      destruct (K_corner I S) as [_ NN]. assert (C : In (v, y) (edges_of K)).
      { apply other_edge; auto. intros C. apply NE. rewrite C. symmetry. apply prev_next; auto. }
      apply K_seen in C as (t' & y' & I' & S'). eapply IH with (x := y); eauto; [|lra]. pose proof (@below_less v x y Y (proj1 ST)). lia.
  Qed.
  Lemma cover v q : v < n -> q < n -> q <> v -> In (v, q) (edges_of D) \/ In (q, v) (edges_of D) -> (th v q <= th v (next v))%R ->
    In (v, q) (edges_of K) \/ In (q, v) (edges_of K).
  Proof. intros V Q NQ J B. destruct (side_left V) as [A _]. apply K_seen in A as (t & y & I & S). eapply K_cover with (x := next v); eauto. Qed.
  Lemma K_edge_in t e : In t D -> In e (tri_edges t) -> In e (edges_of K) -> In t K.
  Proof. intros I E J. apply in_flat_map in J as (t' & I' & E'). rewrite (edge_once (ct_once CT) I (K_sub I') E E'). auto. Qed.
  (** the test at the first side of a corner, and at the second *)
  Lemma test_first t v x y : In t D -> seen t v x y -> x <> next v -> v <> next x -> ((th v x <= th v (next v))%R <-> In t K).
  Proof.
    intros I S N1 N2. destruct (seen_lt I S) as (V & X & Y), (seen_neq I S) as (NX & NY & _), (seen_edges S) as (E1 & _ & E2). split.
    - intros B. apply K_edge_in with (v, x); auto. destruct (@cover v x V X NX) as [C|C]; auto; [left; apply in_flat_map; eauto|]. apply other_edge; auto.
    - intros IK. eapply K_bound; eauto.
  Qed.
  Lemma test_second t v x y : In t D -> seen t v x y -> y <> next v -> v <> next y -> ((th v y <= th v (next v))%R <-> In t K).
  Proof.
    intros I S N1 N2. destruct (seen_lt I S) as (V & X & Y), (seen_neq I S) as (NX & NY & _), (seen_edges S) as (E1 & _ & E2). split.
    - intros B. apply K_edge_in with (y, v); auto. destruct (@cover v y V Y NY) as [C|C]; auto; [right; apply in_flat_map; eauto|]. apply other_edge; auto.
    - intros IK. pose proof (K_step IK S). assert (th v x <= th v (next v))%R by (eapply K_bound; eauto). lra.
  Qed.
  (** the sides decide *)
  Lemma side_keeps t v : In t D -> v < n -> In (v, next v) (tri_edges t) -> In t K.
  Proof. intros I V E. apply K_edge_in with (v, next v); auto. apply side_left; auto. Qed.
  Lemma side_drops t v : In t D -> v < n -> In (next v, v) (tri_edges t) -> ~ In t K.
  Proof. intros I V E IK. destruct (side_left V) as [_ N]. apply N. apply in_flat_map. eauto. Qed.
End Walk.
