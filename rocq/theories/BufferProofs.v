(** Proofs about the index buffer. *)
From Coq Require Import List Arith Lia Bool Permutation ZArith.
From Verif Require Import Base DVec DVecFacts Mesh TriSpec TriFacts Tess TessProofs Buffer BufferSpec.
Import ListNotations.
Set Implicit Arguments.
Unset Strict Implicit.
Local Open Scope nat_scope.

Lemma flatten_length T : length (flatten T) = 3 * length T.
Proof. unfold flatten. induction T as [|[[a b] c] T IH]; auto. cbn [flat_map app length] in *. lia. Qed.
Lemma flatten_app T U : flatten (T ++ U) = flatten T ++ flatten U.
Proof. apply flat_map_app. Qed.

Lemma flatten_nth : forall T i x y z, nth_error T i = Some (x, y, z) ->
  nth_error (flatten T) (3 * i) = Some x /\ nth_error (flatten T) (3 * i + 1) = Some y /\ nth_error (flatten T) (3 * i + 2) = Some z.
Proof.
  induction T as [|[[a b] c] T IH]; intros [|i] x y z H; try discriminate.
  - injection H as -> -> ->. cbn. auto.
  - cbn [nth_error] in H. destruct (IH _ _ _ _ H) as (A & B & C).
    replace (3 * S i) with (S (S (S (3 * i)))) by lia. cbn [flatten flat_map app nth_error Nat.add]. auto.
Qed.
Lemma slot_get pre T i x y z : nth_error T i = Some (x, y, z) ->
  at_ (pre ++ flatten T) (length pre + 3 * i) = Ok x /\ at_ (pre ++ flatten T) (length pre + 3 * i + 1) = Ok y /\
  at_ (pre ++ flatten T) (length pre + 3 * i + 2) = Ok z.
Proof.
  intros H. destruct (flatten_nth H) as (A & B & C). unfold at_.
  rewrite !nth_error_app2 by lia.
  replace (length pre + 3 * i - length pre) with (3 * i) by lia.
  replace (length pre + 3 * i + 1 - length pre) with (3 * i + 1) by lia.
  replace (length pre + 3 * i + 2 - length pre) with (3 * i + 2) by lia. rewrite A, B, C. auto.
Qed.

Lemma upd_app2 A (p q : list A) i x : length p <= i -> upd (p ++ q) i x = p ++ upd q (i - length p) x.
Proof.
  revert i. induction p as [|y p IH]; intros [|i] L; cbn in *; try lia; auto. rewrite IH by lia. auto.
Qed.
Lemma flatten_upd : forall T i x y z k v, nth_error T i = Some (x, y, z) -> k < 3 ->
  upd (flatten T) (3 * i + k) v =
  flatten (upd T i (match k with 0 => (v, y, z) | 1 => (x, v, z) | _ => (x, y, v) end)).
Proof.
  induction T as [|[[a b] c] T IH]; intros [|i] x y z k v H K; try discriminate.
  - injection H as -> -> ->. destruct k as [|[|[|k]]]; try lia; reflexivity.
  - cbn [nth_error] in H. replace (3 * S i + k) with (S (S (S (3 * i + k)))) by lia.
    cbn [flatten flat_map app upd]. do 3 f_equal. apply (IH _ _ _ _ _ v H K).
Qed.
Lemma slot_set pre T i x y z k v : nth_error T i = Some (x, y, z) -> k < 3 ->
  b_write (pre ++ flatten T) (length pre + 3 * i + k) v =
  Ok (pre ++ flatten (upd T i (match k with 0 => (v, y, z) | 1 => (x, v, z) | _ => (x, y, v) end))).
Proof.
  intros H K. unfold b_write.
  assert (L : i < length T) by (apply nth_error_Some; congruence).
  destruct (Nat.ltb_spec (length pre + 3 * i + k) (length (pre ++ flatten T))) as [|B].
  - rewrite upd_app2 by lia. replace (length pre + 3 * i + k - length pre) with (3 * i + k) by lia.
    rewrite (flatten_upd v H K). auto.
  - rewrite app_length, flatten_length in B. lia.
Qed.

Lemma upd_upd A (l : list A) i x y : upd (upd l i x) i y = upd l i y.
Proof. revert i. induction l as [|z l IH]; intros [|i]; cbn; auto. f_equal. auto. Qed.

(** reading the first triangle *)
Lemma offset_ok pre T i x y z a : nth_error T i = Some (x, y, z) ->
  offset_of (pre ++ flatten T) (length pre + 3 * i) a = Ok (if x =? a then 0 else if y =? a then 1 else 2).
Proof.
  intros H. destruct (slot_get pre H) as (A & B & C). unfold offset_of. rewrite A. cbn [bind].
  destruct (x =? a); auto. rewrite B. cbn [bind]. destruct (y =? a); auto.
Qed.
Definition comp (t : nat * nat * nat) (k : nat) : nat := match t with (x, y, z) => match k with 0 => x | 1 => y | _ => z end end.
Lemma slot_comp pre T i t k : nth_error T i = Some t -> k < 3 -> at_ (pre ++ flatten T) (length pre + 3 * i + k) = Ok (comp t k).
Proof.
  destruct t as [[x y] z]. intros H K. destruct (slot_get pre H) as (A & B & C).
  destruct k as [|[|[|k]]]; try lia; cbn; auto. rewrite Nat.add_0_r. auto.
Qed.
Lemma mod3 k : k mod 3 < 3.
Proof. apply Nat.mod_upper_bound. lia. Qed.

Lemma comp_rot1 t k a b : k < 3 -> comp t k = a -> comp t ((k + 1) mod 3) = b -> rot3 (a, b, comp t ((k + 2) mod 3)) t.
Proof. destruct t as [[x y] z]. intros K <- <-. destruct k as [|[|[|]]]; cbn; auto; lia. Qed.
Lemma comp_rot2 t k a b : k < 3 -> comp t k = a -> comp t ((k + 2) mod 3) = b -> rot3 (a, comp t ((k + 1) mod 3), b) t.
Proof. destruct t as [[x y] z]. intros K <- <-. destruct k as [|[|[|]]]; cbn; auto; lia. Qed.
Lemma neg_eqs x a y b : negb (x =? a) || negb (y =? b) = false -> x = a /\ y = b.
Proof. intros H. apply orb_false_iff in H as [A B]. apply negb_false_iff, Nat.eqb_eq in A, B. auto. Qed.

Lemma flip_slots pre T i j a b r : i <> j -> i < length T -> j < length T ->
  flip_indices (pre ++ flatten T) a b (length pre + 3 * i) (length pre + 3 * j) = Ok r ->
  match r with
  | Some ix => exists T', ix = pre ++ flatten T' /\ flipped a b i j T T'
  | None => forall t u c d, nth_error T i = Some t -> nth_error T j = Some u -> distinct3 t -> distinct3 u ->
      rot3 (a, b, c) t -> rot3 (a, d, b) u -> False
  end.
Proof.
  intros NE Li Lj H.
  destruct (nth_error T i) as [t|] eqn:Ti; [|apply nth_error_None in Ti; lia].
  destruct (nth_error T j) as [u|] eqn:Tj; [|apply nth_error_None in Tj; lia].
  destruct t as [[x y] z], u as [[x' y'] z'].
  unfold flip_indices in H. rewrite (offset_ok pre a Ti) in H. cbn [bind] in H.
  set (oab := if x =? a then 0 else if y =? a then 1 else 2) in *.
  assert (Oab : oab < 3) by (unfold oab; destruct (x =? a), (y =? a); lia).
  rewrite (slot_comp pre Ti Oab), (slot_comp pre Ti (mod3 (oab + 1))) in H. cbn [bind] in H.
  destruct (negb (comp (x, y, z) oab =? a) || negb (comp (x, y, z) ((oab + 1) mod 3) =? b)) eqn:E1.
  { injection H as <-. intros t u c d Q1 Q2 D1 D2 R1 R2. injection Q1 as <-. injection Q2 as <-. clear -E1 D1 R1. cbn in D1, R1.
    destruct D1 as (D1 & D2 & D3). unfold oab in E1.
    destruct R1 as [R|[R|R]]; injection R as -> -> ->; rewrite ?Nat.eqb_refl in E1.
    - cbn in E1; rewrite ?Nat.eqb_refl in E1; discriminate E1.
    - destruct (Nat.eqb_spec b a); [congruence|]. destruct (Nat.eqb_spec c a); [congruence|]. cbn in E1; rewrite ?Nat.eqb_refl in E1; discriminate E1.
    - destruct (Nat.eqb_spec c a); [congruence|]. cbn in E1; rewrite ?Nat.eqb_refl in E1; discriminate E1. }
  rewrite (offset_ok pre a Tj) in H. cbn [bind] in H.
  set (oba := if x' =? a then 0 else if y' =? a then 1 else 2) in *.
  assert (Oba : oba < 3) by (unfold oba; destruct (x' =? a), (y' =? a); lia).
  rewrite (slot_comp pre Tj Oba), (slot_comp pre Tj (mod3 (oba + 2))) in H. cbn [bind] in H.
  destruct (negb (comp (x', y', z') oba =? a) || negb (comp (x', y', z') ((oba + 2) mod 3) =? b)) eqn:E2.
  { injection H as <-. intros t u c d Q1 Q2 D1 D2 R1 R2. injection Q1 as <-. injection Q2 as <-. clear -E2 D2 R2. cbn in D2, R2.
    destruct D2 as (D1 & D2 & D3). unfold oba in E2.
    destruct R2 as [R|[R|R]]; injection R as -> -> ->; rewrite ?Nat.eqb_refl in E2.
    - cbn in E2; rewrite ?Nat.eqb_refl in E2; discriminate E2.
    - destruct (Nat.eqb_spec d a); [congruence|]. destruct (Nat.eqb_spec b a); [congruence|]. cbn in E2; rewrite ?Nat.eqb_refl in E2; discriminate E2.
    - destruct (Nat.eqb_spec b a); [congruence|]. cbn in E2; rewrite ?Nat.eqb_refl in E2; discriminate E2. }
  rewrite (slot_comp pre Ti (mod3 (oab + 2))), (slot_comp pre Tj (mod3 (oba + 1))) in H. cbn [bind] in H.
  set (c := comp (x, y, z) ((oab + 2) mod 3)) in *. set (d := comp (x', y', z') ((oba + 1) mod 3)) in *.
  apply neg_eqs in E1 as [A1 B1]. apply neg_eqs in E2 as [A2 B2].
  assert (R1 : rot3 (a, b, c) (x, y, z)) by (apply comp_rot1; auto).
  assert (R2 : rot3 (a, d, b) (x', y', z')) by (apply comp_rot2; auto).
  clearbody c d. clear A1 B1 A2 B2.
  pose proof (@slot_set pre T i x y z 0 a Ti ltac:(lia)) as W. rewrite Nat.add_0_r in W. rewrite W in H. clear W. cbn [bind] in H.
  rewrite (@slot_set pre _ i a y z 1 d) in H; [|apply nth_error_upd_eq; lia|lia]. cbn [bind] in H. rewrite upd_upd in H.
  rewrite (@slot_set pre _ i a d z 2 c) in H; [|apply nth_error_upd_eq; lia|lia]. cbn [bind] in H. rewrite upd_upd in H.
  pose proof (@slot_set pre (upd T i (a, d, c)) j x' y' z' 0 d) as W. rewrite Nat.add_0_r in W.
  rewrite W in H; [|rewrite nth_error_upd_ne; auto|lia]. clear W. cbn [bind] in H.
  rewrite (@slot_set pre _ j d y' z' 1 b) in H; [|apply nth_error_upd_eq; rewrite upd_length; lia|lia]. cbn [bind] in H. rewrite upd_upd in H.
  rewrite (@slot_set pre _ j d b z' 2 c) in H; [|apply nth_error_upd_eq; rewrite upd_length; lia|lia]. cbn [bind] in H. rewrite upd_upd in H.
  injection H as <-. exists (upd (upd T i (a, d, c)) j (d, b, c)). split; auto.
  exists c, d, (x, y, z), (x', y', z'). split; [auto|]. split; [auto|]. split; [auto|]. split; [auto|].
  split; [rewrite !upd_length; auto|].
  split; [rewrite nth_error_upd_ne by auto; apply nth_error_upd_eq; lia|].
  split; [apply nth_error_upd_eq; rewrite upd_length; lia|].
  intros k K1 K2. rewrite !nth_error_upd_ne; auto.
Qed.

(** the flip never panics on two triangles of the buffer *)
Lemma flip_total pre T i j a b : i < length T -> j < length T ->
  exists r, flip_indices (pre ++ flatten T) a b (length pre + 3 * i) (length pre + 3 * j) = Ok r.
Proof.
  intros Li Lj.
  destruct (nth_error T i) as [t|] eqn:Ti; [|apply nth_error_None in Ti; lia].
  destruct (nth_error T j) as [u|] eqn:Tj; [|apply nth_error_None in Tj; lia].
  destruct t as [[x y] z], u as [[x' y'] z'].
  unfold flip_indices. rewrite (offset_ok pre a Ti). cbn [bind].
  set (oab := if x =? a then 0 else if y =? a then 1 else 2) in *.
  assert (Oab : oab < 3) by (unfold oab; destruct (x =? a), (y =? a); lia).
  rewrite (slot_comp pre Ti Oab), (slot_comp pre Ti (mod3 (oab + 1))). cbn [bind].
  destruct (_ || _); [eauto|].
  rewrite (offset_ok pre a Tj). cbn [bind].
  set (oba := if x' =? a then 0 else if y' =? a then 1 else 2) in *.
  assert (Oba : oba < 3) by (unfold oba; destruct (x' =? a), (y' =? a); lia).
  rewrite (slot_comp pre Tj Oba), (slot_comp pre Tj (mod3 (oba + 2))). cbn [bind].
  destruct (_ || _); [eauto|].
  rewrite (slot_comp pre Ti (mod3 (oab + 2))), (slot_comp pre Tj (mod3 (oba + 1))). cbn [bind].
  assert (W : forall ix k v, length ix = length (pre ++ flatten T) -> k < length ix -> exists ix', b_write ix k v = Ok ix' /\ length ix' = length (pre ++ flatten T)).
  { intros ix k v L K. unfold b_write. destruct (Nat.ltb_spec k (length ix)); [|lia]. eexists. split; [reflexivity|]. rewrite upd_length. auto. }
  assert (L0 : length (pre ++ flatten T) = length pre + 3 * length T) by (rewrite app_length, flatten_length; auto).
  edestruct (W (pre ++ flatten T)) as (i1 & -> & L1); [auto|lia|]. cbn [bind].
  edestruct (W i1) as (i2 & -> & L2); [auto|lia|]. cbn [bind].
  edestruct (W i2) as (i3 & -> & L3); [auto|lia|]. cbn [bind].
  edestruct (W i3) as (i4 & -> & L4); [auto|lia|]. cbn [bind].
  edestruct (W i4) as (i5 & -> & L5); [auto|lia|]. cbn [bind].
  edestruct (W i5) as (i6 & -> & L6); [auto|lia|]. cbn [bind]. eauto.
Qed.

(** ** A flip keeps the covered chain *)
Lemma net_app e1 e2 a b : net (e1 ++ e2) a b = (net e1 a b + net e2 a b)%Z.
Proof. unfold net, cnt. rewrite !filter_app, !app_length. lia. Qed.
Lemma net_perm e1 e2 a b : Permutation e1 e2 -> net e1 a b = net e2 a b.
Proof.
  intros P. unfold net, cnt.
  assert (Q : forall f, length (filter f e1) = length (filter f e2)).
  { intros f. induction P; cbn; repeat (destruct (f _)); cbn; lia. }
  rewrite !Q. auto.
Qed.
Definition tnet T a b := net (flat_map (@tri_edges nat) T) a b.
Lemma tnet_cons t T a b : tnet (t :: T) a b = (net (tri_edges t) a b + tnet T a b)%Z.
Proof. unfold tnet. cbn [flat_map]. apply net_app. Qed.
Lemma tnet_app T U a b : tnet (T ++ U) a b = (tnet T a b + tnet U a b)%Z.
Proof. unfold tnet. rewrite flat_map_app. apply net_app. Qed.
Lemma net_cons x y r a b : net ((x, y) :: r) a b = (net [(x, y)] a b + net r a b)%Z.
Proof. change ((x, y) :: r) with ([(x, y)] ++ r). apply net_app. Qed.
Lemma net_rev1 x y a b : net [(y, x)] a b = (- net [(x, y)] a b)%Z.
Proof.
  unfold net, cnt. cbn [filter fst snd]. rewrite (andb_comm (y =? a)), (andb_comm (y =? b)).
  destruct ((x =? b) && (y =? a)), ((x =? a) && (y =? b)); cbn; lia.
Qed.
Lemma net_nil a b : net [] a b = 0%Z.
Proof. reflexivity. Qed.
Lemma net3 (e1 e2 e3 : nat * nat) a b : net [e1; e2; e3] a b = (net [e1] a b + (net [e2] a b + net [e3] a b))%Z.
Proof. rewrite <- !net_app. reflexivity. Qed.
Lemma rot3_net t u a b : rot3 t u -> net (tri_edges u) a b = net (tri_edges t) a b.
Proof.
  destruct t as [[x y] z]. intros [->|[->| ->]]; auto; apply net_perm; cbn.
  - apply Permutation_sym, (Permutation_cons_append [(y, z); (z, x)] (x, y)).
  - apply (Permutation_cons_append [(x, y); (y, z)] (z, x)).
Qed.

Lemma tnet_split T i t a b : nth_error T i = Some t ->
  tnet T a b = (net (tri_edges t) a b + tnet (firstn i T ++ skipn (S i) T) a b)%Z.
Proof.
  intros H. rewrite <- tnet_cons. apply net_perm. apply Permutation_flat_map.
  rewrite <- (firstn_skipn i T) at 1.
  assert (E : skipn i T = t :: skipn (S i) T).
  { revert i H. induction T as [|x T IH]; intros [|i] H; try discriminate.
    - injection H as ->. auto.
    - apply IH. auto. }
  rewrite E. apply Permutation_sym, Permutation_middle.
Qed.
Lemma tnet_upd T i t u a b : nth_error T i = Some t ->
  tnet (upd T i u) a b = (tnet T a b - net (tri_edges t) a b + net (tri_edges u) a b)%Z.
Proof.
  intros H. assert (L : i < length T) by (apply nth_error_Some; congruence).
  rewrite (tnet_split a b H). rewrite (@tnet_split (upd T i u) i u) by (apply nth_error_upd_eq; auto).
  assert (E : firstn i (upd T i u) ++ skipn (S i) (upd T i u) = firstn i T ++ skipn (S i) T).
  { clear. revert i. induction T as [|x T IH]; intros [|i]; auto. specialize (IH i). cbn in *. f_equal. auto. }
  rewrite E. lia.
Qed.
Lemma nth_ext T T' : length T' = length T -> (forall k, nth_error T' k = nth_error T k) -> T' = T :> list (nat * nat * nat).
Proof.
  revert T'. induction T as [|x T IH]; intros [|y T'] L H; try discriminate; auto.
  pose proof (H 0) as H0. injection H0 as ->. f_equal. apply IH; [auto|]. intros k. apply (H (S k)).
Qed.
Lemma flipped_upd a b i j T T' : i <> j -> flipped a b i j T T' ->
  exists c d t u, nth_error T i = Some t /\ nth_error T j = Some u /\ rot3 (a, b, c) t /\ rot3 (a, d, b) u /\
    T' = upd (upd T i (a, d, c)) j (d, b, c).
Proof.
  intros NE (c & d & t & u & Ti & Tj & R1 & R2 & L & T1 & T2 & O). exists c, d, t, u. do 4 (split; [auto|]).
  assert (Li : i < length T) by (apply nth_error_Some; congruence).
  assert (Lj : j < length T) by (apply nth_error_Some; congruence).
  apply nth_ext; [rewrite !upd_length; auto|]. intros k.
  destruct (Nat.eq_dec k j) as [->|K1]; [rewrite nth_error_upd_eq by (rewrite upd_length; auto); auto|].
  rewrite nth_error_upd_ne by auto.
  destruct (Nat.eq_dec k i) as [->|K2]; [rewrite nth_error_upd_eq; auto|]. rewrite nth_error_upd_ne; auto.
Qed.
Lemma flipped_net a b i j T T' : i <> j -> flipped a b i j T T' -> forall x y, tnet T' x y = tnet T x y.
Proof.
  intros NE F x y. apply flipped_upd in F as (c & d & t & u & Ti & Tj & R1 & R2 & ->); auto.
  rewrite (@tnet_upd _ j u), (@tnet_upd T i t); auto. 2:{ rewrite nth_error_upd_ne; auto. }
  rewrite (rot3_net x y R1), (rot3_net x y R2). cbn [tri_edges].
  rewrite !net3. rewrite (net_rev1 a b), (net_rev1 c d). lia.
Qed.
Lemma flip_covers p a b i j T T' : i <> j -> flipped a b i j T T' -> covers p T -> covers p T'.
Proof. intros NE F C x y. rewrite <- (C x y). apply (flipped_net NE F). Qed.
