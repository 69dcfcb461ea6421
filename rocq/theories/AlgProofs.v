(** Exact-arithmetic facts over an arbitrary commutative ring. *)
From Coq Require Import List Arith ZArith Lia Bool Ring Ring_theory Setoid Morphisms Permutation.
From Verif Require Import Base Mesh Tess Alg AlgSpec TriSpec TriFacts.
Import ListNotations.
Set Implicit Arguments.
Unset Strict Implicit.

Section AlgProofs.
  Variables (R : Type) (zero one : R) (add mul sub : R -> R -> R) (opp : R -> R) (req : R -> R -> Prop).
  Hypothesis Eq : Equivalence req.
  Hypothesis Ext : ring_eq_ext add mul opp req.
  Hypothesis RT : ring_theory zero one add mul sub opp req.
  Add Ring Rr : RT (setoid Eq Ext).
  Instance add_proper : Proper (req ==> req ==> req) add := Radd_ext Ext.
  Instance mul_proper : Proper (req ==> req ==> req) mul := Rmul_ext Ext.
  Instance opp_proper : Proper (req ==> req) opp := Ropp_ext Ext.
  Instance sub_proper : Proper (req ==> req ==> req) sub.
  Proof. intros a b H c d K. rewrite !(Rsub_def RT), H, K. reflexivity. Qed.
  Infix "+" := add. Infix "*" := mul. Infix "-" := sub. Notation "- x" := (opp x).
  Infix "==" := req (at level 70).
  Notation Sum := (sum zero add).
  Notation neumaier := (neumaier zero add sub).
  Notation kahan := (kahan zero add sub).
  Notation cross2 := (cross2 mul sub).
  Notation esum := (esum zero add).

  Lemma neumaier_gen (ge : R -> R -> bool) (l : list R) : forall (s c : R) (n : nat), exists (s' c' : R) (n' : nat),
    fold_left (neumaier_step add sub ge) l (s, c, n) = (s', c', n') /\ s' + c' == s + c + Sum l /\ n' = (n + length l)%nat.
  Proof.
    induction l as [|v l IH]; intros s c n; cbn [fold_left AlgSpec.sum fold_right length].
    - exists s, c, n. split; [reflexivity|]. split; [ring|lia].
    - cbn [neumaier_step]. edestruct IH as (s' & c' & n' & E & H1 & H2). rewrite E. exists s', c', n'.
      split; [reflexivity|]. split; [|lia]. rewrite H1. unfold AlgSpec.sum. destruct (ge s v); ring.
  Qed.
  Lemma neumaier_sum ge l : fst (neumaier ge l) == Sum l /\ snd (neumaier ge l) = length l.
  Proof.
    unfold Alg.neumaier. destruct (neumaier_gen ge l zero zero 0) as (s & c & n & E & H1 & H2). rewrite E.
    cbn. split; [rewrite H1; ring|exact H2].
  Qed.
  Lemma kahan_gen (l : list R) : forall (s c : R) (n : nat), c == zero -> exists (s' c' : R) (n' : nat),
    fold_left (kahan_step add sub) l (s, c, n) = (s', c', n') /\ s' == s + Sum l /\ n' = (n + length l)%nat.
  Proof.
    induction l as [|v l IH]; intros s c n Hc; cbn [fold_left AlgSpec.sum fold_right length].
    - exists s, c, n. split; [reflexivity|]. split; [ring|lia].
    - cbn [kahan_step]. edestruct (IH (s + (v - c)) ((s + (v - c)) - s - (v - c)) (S n)) as (s' & c' & n' & E & H1 & H2); [ring|].
      rewrite E. exists s', c', n'.
      split; [reflexivity|]. split; [|lia]. rewrite H1, Hc. unfold AlgSpec.sum. ring.
  Qed.
  Lemma kahan_sum l : fst (kahan l) == Sum l /\ snd (kahan l) = length l.
  Proof.
    unfold Alg.kahan. destruct (@kahan_gen l zero zero 0) as (s & c & n & E & H1 & H2); [ring|]. rewrite E.
    cbn. split; [rewrite H1; ring|exact H2].
  Qed.

  (** ** weights along closed polygons *)
  Lemma covers_zero (w : nat -> nat -> R) : (forall x y, w y x == - w x y) -> (forall x, w x x == zero) ->
    forall n es, length es <= n -> (forall a b, net es a b = 0%Z) -> esum w es == zero.
  Proof.
    intros An Al. induction n as [|n IH]; intros es L N.
    - destruct es; [reflexivity|cbn in L; lia].
    - destruct es as [|[a b] r]; [reflexivity|]. cbn [TriSpec.esum length] in *.
      destruct (Nat.eq_dec a b) as [->|D].
      + rewrite (Al b), IH; [ring|lia|]. intros x y. specialize (N x y). unfold net, cnt in *. cbn [filter fst snd] in N.
        rewrite (andb_comm (b =? y)) in N. destruct ((b =? x) && (b =? y)); cbn [length] in N; lia.
      + assert (I : In (b, a) r).
        { destruct (in_dec (fun p q : nat * nat => ltac:(decide equality; apply Nat.eq_dec)) (b, a) r) as [I|I]; [exact I|].
          exfalso. specialize (N a b). unfold net, cnt in N. cbn [filter fst snd] in N.
          rewrite !Nat.eqb_refl in N. cbn [andb] in N.
          replace (a =? b) with false in N by (symmetry; apply Nat.eqb_neq; auto). cbn [andb length] in N.
          assert (Z : filter (fun e => (fst e =? b) && (snd e =? a)) r = []).
          { clear N. destruct (filter (fun e => (fst e =? b) && (snd e =? a)) r) as [|[x y] q] eqn:E; [reflexivity|]. exfalso. apply I.
            assert (J : In (x, y) (filter (fun e => (fst e =? b) && (snd e =? a)) r)) by (rewrite E; left; reflexivity).
            apply filter_In in J. destruct J as [J1 J2]. cbn in J2. apply andb_true_iff in J2. destruct J2 as [J2 J3].
            apply Nat.eqb_eq in J2, J3. subst. exact J1. }
          rewrite Z in N. cbn [length] in N. lia. }
        apply in_split in I. destruct I as (r1 & r2 & ->).
        rewrite (esum_perm Eq Ext RT w (l2 := (b, a) :: r1 ++ r2)); [|apply Permutation_sym, Permutation_middle].
        cbn [TriSpec.esum]. rewrite IH, (An a b); [ring| |].
        * rewrite !app_length in *. cbn in L. lia.
        * intros x y. specialize (N x y). unfold net, cnt in *. cbn [filter fst snd] in N.
          rewrite !filter_app in *. cbn [filter fst snd] in N. rewrite (andb_comm (b =? x)), (andb_comm (b =? y)) in N.
          destruct ((a =? x) && (b =? y)), ((a =? y) && (b =? x)); cbn [length] in N; rewrite ?app_length in *; cbn [length] in N; lia.
  Qed.
  Lemma esum_flip (V : Type) (w : V -> V -> R) : (forall x y, w y x == - w x y) ->
    forall es, esum w (map (fun e => (snd e, fst e)) es) == - esum w es.
  Proof. intros An. induction es as [|[x y] es IH]; cbn; [ring|]. rewrite IH, (An x y). ring. Qed.
  Lemma net_app es es' a b : net (es ++ es') a b = (net es a b + net es' a b)%Z.
  Proof. unfold net, cnt. rewrite !filter_app, !app_length. lia. Qed.
  Lemma net_swap es a b : net (map (fun e => (snd e, fst e)) es) a b = (- net es a b)%Z.
  Proof.
    unfold net. enough (H : forall x y, cnt (map (fun e => (snd e, fst e)) es) x y = cnt es y x) by (rewrite !H; lia).
    intros x y. unfold cnt. f_equal. induction es as [|[u v] es IH]; [reflexivity|]. cbn [map filter fst snd].
    rewrite (andb_comm (v =? x)). destruct ((u =? y) && (v =? x)); cbn [length]; lia.
  Qed.
  Lemma covers_esum (w : nat -> nat -> R) p T : (forall x y, w y x == - w x y) -> (forall x, w x x == zero) ->
    covers p T -> esum w (flat_map (@tri_edges nat) T) == esum w (poly_edges p).
  Proof.
    intros An Al C.
    assert (H : esum w (flat_map (@tri_edges nat) T ++ map (fun e => (snd e, fst e)) (poly_edges p)) == zero).
    { eapply covers_zero; eauto. intros a b. rewrite net_app, net_swap, C. lia. }
    rewrite (esum_app Eq Ext RT), esum_flip in H; auto.
    transitivity (esum w (flat_map (@tri_edges nat) T) + - esum w (poly_edges p) + esum w (poly_edges p)); [ring|].
    rewrite H. ring.
  Qed.

  (** ** signed area *)
  Lemma esum_map (V W : Type) (f : V -> W) (w : W -> W -> R) es :
    esum w (map (fun e => (f (fst e), f (snd e))) es) = esum (fun x y => w (f x) (f y)) es.
  Proof. induction es as [|[x y] es IH]; cbn; [reflexivity|]. rewrite IH. reflexivity. Qed.
  Lemma poly_edges_map (V W : Type) (f : V -> W) p : poly_edges (map f p) = map (fun e => (f (fst e), f (snd e))) (poly_edges p).
  Proof.
    destruct p as [|a r]; [reflexivity|]. cbn [map poly_edges]. 
    assert (G : forall (l k : list V), combine (map f l) (map f k) = map (fun e => (f (fst e), f (snd e))) (combine l k)).
    { induction l as [|x l IH]; intros [|y k]; cbn; auto. rewrite IH. reflexivity. }
    change (f a :: map f r) with (map f (a :: r)). rewrite <- G, map_app. reflexivity.
  Qed.
  Lemma esum_ext (V : Type) (w w' : V -> V -> R) es : (forall x y, w x y == w' x y) -> esum w es == esum w' es.
  Proof. intros H. induction es as [|[x y] es IH]; cbn; [reflexivity|]. rewrite IH, (H x y). reflexivity. Qed.
  Lemma esum_add (V : Type) (w w' : V -> V -> R) es : esum (fun x y => w x y + w' x y) es == esum w es + esum w' es.
  Proof. induction es as [|[x y] es IH]; cbn; [ring|]. rewrite IH. ring. Qed.
  Lemma esum_scale (V : Type) c (w : V -> V -> R) es : esum (fun x y => c * w x y) es == c * esum w es.
  Proof. induction es as [|[x y] es IH]; cbn; [ring|]. rewrite IH. ring. Qed.
  (** telescoping *)
  Lemma esum_path (V : Type) (f : V -> R) l : forall a b, esum (fun x y => f y - f x) (path (a :: l ++ [b])) == f b - f a.
  Proof.
    induction l as [|c l IH]; intros a b; [cbn; ring|].
    change (path (a :: (c :: l) ++ [b])) with ((a, c) :: path (c :: l ++ [b])). cbn [TriSpec.esum]. rewrite IH. ring.
  Qed.
  Lemma esum_tele (V : Type) (f : V -> R) p : esum (fun x y => f y - f x) (poly_edges p) == zero.
  Proof.
    destruct p as [|a r]; [reflexivity|]. destruct (exists_last (l := a :: r)) as (q & b & E); [discriminate|].
    destruct q as [|a' q].
    - injection E as -> ->. cbn. ring.
    - injection E as <- ->. rewrite poly_edges_path, (esum_app Eq Ext RT), esum_path. cbn. ring.
  Qed.
  Lemma poly_edges_rot (V : Type) (p q : list V) : Permutation (poly_edges (p ++ q)) (poly_edges (q ++ p)).
  Proof.
    enough (G : forall (a : V) r, Permutation (poly_edges (a :: r)) (poly_edges (r ++ [a]))).
    { revert q. induction p as [|a p IH]; intros q; [rewrite app_nil_r; reflexivity|].
      cbn [app]. etransitivity; [apply G|]. rewrite <- app_assoc. etransitivity; [apply IH|].
      rewrite <- app_assoc. reflexivity. }
    intros a r. destruct r as [|c r]; [reflexivity|].
    cbn [app]. rewrite poly_edges_path. unfold poly_edges.
    change ((c :: r) ++ [a]) with (c :: r ++ [a]).
    change (combine (a :: c :: r) (c :: r ++ [a])) with ((a, c) :: combine (c :: r) (r ++ [a])).
    rewrite combine_path. apply Permutation_cons_append.
  Qed.
  Lemma path_rev (V : Type) : forall (l : list V), path (rev l) = rev (map (fun e => (snd e, fst e)) (path l)).
  Proof.
    induction l as [|a l IH]; [reflexivity|]. destruct l as [|b l]; [reflexivity|].
    change (path (a :: b :: l)) with ((a, b) :: path (b :: l)). cbn [map rev fst snd] in *.
    rewrite <- IH. rewrite <- app_assoc. cbn [app]. rewrite path_app. reflexivity.
  Qed.
  Lemma poly_edges_rev (V : Type) (p : list V) :
    Permutation (poly_edges (rev p)) (map (fun e => (snd e, fst e)) (poly_edges p)).
  Proof.
    destruct p as [|a r]; [reflexivity|]. destruct (exists_last (l := a :: r)) as (q & b & E); [discriminate|].
    destruct q as [|a' q]; [injection E as -> ->; reflexivity|]. injection E as <- ->.
    rewrite poly_edges_path, map_app. cbn [map fst snd].
    replace (rev (a :: q ++ [b])) with (b :: rev q ++ [a]) by (cbn; rewrite rev_app_distr; reflexivity).
    rewrite poly_edges_path. apply Permutation_app_tail.
    replace (b :: rev q ++ [a]) with (rev (a :: q ++ [b])) by (cbn; rewrite rev_app_distr; reflexivity).
    rewrite path_rev. apply Permutation_sym, Permutation_rev.
  Qed.
  Lemma esum_perm' (V : Type) (w : V -> V -> R) l1 l2 : Permutation l1 l2 -> esum w l1 == esum w l2.
  Proof. apply (esum_perm Eq Ext RT). Qed.

  Lemma mapM_ok (A B : Type) (f : A -> res B) (g : A -> B) l : (forall x, In x l -> f x = Ok (g x)) -> mapM f l = Ok (map g l).
  Proof.
    induction l as [|x l IH]; intros H; [reflexivity|]. cbn. rewrite H by (left; reflexivity). cbn.
    rewrite IH by (intros y I; apply H; right; exact I). reflexivity.
  Qed.
  Lemma at_nth (A : Type) (l : list A) i d : i < length l -> at_ l i = Ok (nth i l d).
  Proof. intros H. unfold at_. rewrite (nth_error_nth' l d H). reflexivity. Qed.
  Lemma nth_map_seq (A : Type) (f : nat -> A) n i d : i < n -> nth i (map f (seq 0 n)) d = f i.
  Proof.
    intros H. rewrite (nth_indep _ _ (f 0)) by (rewrite map_length, seq_length; exact H).
    rewrite map_nth, seq_nth by exact H. reflexivity.
  Qed.
  (** the indexed pairs (i, i + 1 mod n) are the closed polygon's edges *)
  Lemma poly_edges_nth (V : Type) (p : list V) d :
    poly_edges p = map (fun i => (nth i p d, nth ((i + 1) mod length p)%nat p d)) (seq 0 (length p)).
  Proof.
    destruct p as [|a r]; [reflexivity|]. set (p := a :: r).
    assert (Lc : length (poly_edges p) = length p).
    { unfold poly_edges, p. rewrite combine_length, app_length. cbn [length]. lia. }
    apply (nth_ext _ _ (d, d) (d, d)); [rewrite map_length, seq_length; exact Lc|].
    intros i Hi. rewrite Lc in Hi.
    rewrite nth_map_seq by exact Hi.
    unfold poly_edges, p. rewrite combine_nth by (rewrite app_length; cbn; lia). fold p. f_equal.
    assert (Lp : length p = S (length r)) by reflexivity.
    destruct (Nat.eq_dec i (length r)) as [->|D].
    - rewrite app_nth2, Nat.sub_diag by lia. rewrite Lp, Nat.add_1_r, Nat.mod_same by lia. reflexivity.
    - rewrite app_nth1 by lia. rewrite Nat.mod_small by lia. rewrite Nat.add_1_r. reflexivity.
  Qed.
  Lemma sum_esum (V : Type) (w : V -> V -> R) es : Sum (map (fun e => w (fst e) (snd e)) es) = esum w es.
  Proof. induction es as [|[x y] es IH]; [reflexivity|]. cbn. unfold AlgSpec.sum in IH. rewrite IH. reflexivity. Qed.

  Section Area.
    Variables (ge : R -> R -> bool) (half : R).
    Notation signed_area := (signed_area zero add mul sub ge half).
    Lemma area_ok pts : exists a, signed_area pts = Ok a /\ a == half * esum cross2 (poly_edges pts).
    Proof.
      unfold Alg.signed_area.
      rewrite (@mapM_ok _ _ _ (fun i => cross2 (nth i pts (zero, zero)) (nth ((i + 1) mod length pts)%nat pts (zero, zero)))).
      2:{ intros i I. apply in_seq in I. rewrite (@at_nth _ _ _ (zero, zero)) by lia. cbn [bind].
          rewrite (@at_nth _ _ _ (zero, zero)) by (apply Nat.mod_upper_bound; lia). cbn [bind]. unfold AlgSpec.cross2.
          reflexivity. }
      cbn [bind]. eexists. split; [reflexivity|]. destruct (neumaier_sum ge (map (fun i => cross2 (nth i pts (zero, zero)) (nth ((i + 1) mod length pts)%nat pts (zero, zero))) (seq 0 (length pts)))) as [-> _].
      rewrite (poly_edges_nth pts (zero, zero)), <- sum_esum, map_map. reflexivity.
    Qed.
    Lemma cross2_anti p q : cross2 q p == - cross2 p q.
    Proof. unfold AlgSpec.cross2. ring. Qed.
    Lemma cross2_self p : cross2 p p == zero.
    Proof. unfold AlgSpec.cross2. ring. Qed.
    Lemma area_val pts a : signed_area pts = Ok a -> a == half * esum cross2 (poly_edges pts).
    Proof. intros E. destruct (area_ok pts) as (b & E' & H). rewrite E in E'. injection E' as ->. exact H. Qed.

    Theorem area_rotate p q : exists a b, signed_area (p ++ q) = Ok a /\ signed_area (q ++ p) = Ok b /\ a == b.
    Proof.
      destruct (area_ok (p ++ q)) as (a & Ea & Ha), (area_ok (q ++ p)) as (b & Eb & Hb).
      exists a, b. repeat split; auto. rewrite Ha, Hb. rewrite (esum_perm' cross2 (poly_edges_rot p q)). reflexivity.
    Qed.
    Theorem area_reverse p : exists a b, signed_area p = Ok a /\ signed_area (rev p) = Ok b /\ b == - a.
    Proof.
      destruct (area_ok p) as (a & Ea & Ha), (area_ok (rev p)) as (b & Eb & Hb).
      exists a, b. repeat split; auto. rewrite Ha, Hb, (esum_perm' cross2 (poly_edges_rev p)), (esum_flip cross2_anti). ring.
    Qed.
    Theorem area_translate d p : exists a b, signed_area p = Ok a /\
      signed_area (map (fun q => (fst q + fst d, snd q + snd d)) p) = Ok b /\ a == b.
    Proof.
      set (f := fun q : R * R => (fst q + fst d, snd q + snd d)).
      destruct (area_ok p) as (a & Ea & Ha), (area_ok (map f p)) as (b & Eb & Hb).
      exists a, b. repeat split; auto. rewrite Ha, Hb, poly_edges_map, esum_map.
      rewrite (@esum_ext _ (fun x y => cross2 (f x) (f y)) (fun x y => cross2 x y + ((fst d * snd y - snd d * fst y) - (fst d * snd x - snd d * fst x)))).
      2:{ intros x y. unfold AlgSpec.cross2, f. cbn [fst snd]. ring. }
      rewrite esum_add, (esum_tele (fun x => fst d * snd x - snd d * fst x)). ring.
    Qed.
    Theorem area_small p : length p < 3 -> exists a, signed_area p = Ok a /\ a == zero.
    Proof.
      intros L. destruct (area_ok p) as (a & Ea & Ha). exists a. split; [exact Ea|]. rewrite Ha.
      destruct p as [|x [|y [|z r]]]; cbn in L; try lia; cbn; unfold AlgSpec.cross2; ring.
    Qed.
    Theorem area_triangles (pos : nat -> R * R) p T : covers p T -> exists a bs, signed_area (map pos p) = Ok a /\
      mapM (fun t => match t with (x, y, z) => signed_area [pos x; pos y; pos z] end) T = Ok bs /\ a == Sum bs.
    Proof.
      intros C. destruct (area_ok (map pos p)) as (a & Ea & Ha). exists a.
      rewrite poly_edges_map, esum_map in Ha.
      rewrite <- (@covers_esum (fun x y => cross2 (pos x) (pos y)) p T) in Ha; auto.
      2:{ intros x y. apply cross2_anti. } 2:{ intros x. apply cross2_self. }
      clear C. assert (H : exists bs, mapM (fun t => match t with (x, y, z) => signed_area [pos x; pos y; pos z] end) T = Ok bs /\
        half * esum (fun x y => cross2 (pos x) (pos y)) (flat_map (@tri_edges nat) T) == Sum bs).
      { clear Ha. induction T as [|[[x y] z] T (bs & IH1 & IH2)]; [exists []; split; [reflexivity|cbn; ring]|].
        destruct (area_ok [pos x; pos y; pos z]) as (b & Eb & Hb). exists (b :: bs). cbn [mapM]. rewrite Eb. cbn [bind]. rewrite IH1.
        split; [reflexivity|]. cbn [flat_map]. rewrite (esum_app Eq Ext RT).
        unfold AlgSpec.sum in *. cbn [fold_right]. rewrite <- IH2, Hb. cbn. ring. }
      destruct H as (bs & H1 & H2). exists bs. split; [exact Ea|]. split; [exact H1|]. rewrite Ha. exact H2.
    Qed.
  End Area.

  (** ** curves *)
  Notation vec := (vec R).
  Notation lerp := (lerp add mul sub).
  Notation point_at := (point_at one add mul sub).
  Definition controls (cv : curve R) (s e : vec) : list vec :=
    match cv with Linear _ => [s; e] | Quadratic c => [s; c; e] | Cubic c1 c2 => [s; c1; c2; e] end.
  Theorem point_casteljau cv s e t i :
    point_at cv s e t i == casteljau zero one add mul sub (length (controls cv s e)) t (controls cv s e) i.
  Proof. destruct cv; cbn; unfold Alg.lerp; ring. Qed.
  Theorem point_start cv s e i : point_at cv s e zero i == s i.
  Proof. destruct cv; cbn; unfold Alg.lerp; ring. Qed.
  Theorem point_stop cv s e i : point_at cv s e one i == e i.
  Proof. destruct cv; cbn; unfold Alg.lerp; ring. Qed.
  Definition reverse (cv : curve R) : curve R :=
    match cv with Linear _ => Linear R | Quadratic c => Quadratic c | Cubic c1 c2 => Cubic c2 c1 end.
  Theorem point_reverse cv s e t i : point_at (reverse cv) e s (one - t) i == point_at cv s e t i.
  Proof. destruct cv; cbn; unfold Alg.lerp; ring. Qed.

  (** ** Newell normal *)
  Section Newell.
    Variable mhalf : R.
    Hypothesis MH : mhalf + mhalf == - one.
    Notation newell := (newell zero add mul sub mhalf).
    Notation cross3 := (cross3 mul sub).
    Notation dot3 := (dot3 add mul).
    Definition nterm (c : nat) (a b : vec) : R :=
      match c with
      | 0 => (a 2 + b 2) * (b 1 - a 1)
      | 1 => (a 0 + b 0) * (b 2 - a 2)
      | _ => (a 1 + b 1) * (b 0 - a 0)
      end.
    Definition nprod (c : nat) (a : vec) : R := match c with 0 => a 2 * a 1 | 1 => a 0 * a 2 | _ => a 1 * a 0 end.
    Lemma newell_sum c l : newell l c == esum (nterm c) (poly_edges l) * mhalf.
    Proof.
      unfold Alg.newell. destruct (kahan_sum (map (fun ab : vec * vec => nterm c (fst ab) (snd ab)) (poly_edges l))) as [K _].
      rewrite (sum_esum (nterm c)) in K. rewrite <- K. destruct c as [|[|c]]; reflexivity.
    Qed.
    Theorem newell_cross c l : newell l c == - mhalf * esum (cross3 c) (poly_edges l).
    Proof.
      rewrite newell_sum.
      rewrite (@esum_ext _ (nterm c) (fun a b => - one * cross3 c a b + (nprod c b - nprod c a))).
      2:{ intros a b. destruct c as [|[|c]]; cbn; ring. }
      rewrite esum_add, (esum_scale (- one) (cross3 c)), (esum_tele (nprod c)). ring.
    Qed.
    Lemma cross3_anti c a b : cross3 c b a == - cross3 c a b.
    Proof. destruct c as [|[|c]]; cbn; ring. Qed.
    Theorem newell_translate c d l : newell (map (fun v i => v i + d i) l) c == newell l c.
    Proof.
      rewrite !newell_cross. rewrite poly_edges_map.
      set (f := fun (v : vec) (i : nat) => v i + d i). rewrite (esum_map f).
      rewrite (@esum_ext _ (fun a b => cross3 c (f a) (f b)) (fun a b => cross3 c a b + (cross3 c d b - cross3 c d a))).
      2:{ intros a b. unfold f. destruct c as [|[|c]]; cbn; ring. }
      rewrite (esum_add (cross3 c)), (esum_tele (cross3 c d)).
      unfold Alg.vec in *. ring.
    Qed.
    Theorem newell_reverse c l : newell (rev l) c == - newell l c.
    Proof. rewrite !newell_cross, (esum_perm' (cross3 c) (poly_edges_rev l)), (esum_flip (cross3_anti c)). ring. Qed.
    Theorem newell_rotate c p q : newell (p ++ q) c == newell (q ++ p) c.
    Proof. rewrite !newell_cross, (esum_perm' (cross3 c) (poly_edges_rot p q)). reflexivity. Qed.
    Lemma cross3_lin c n s (v w : vec) : (forall i, v i == s * w i) -> cross3 c n v == s * cross3 c n w.
    Proof. intros H. destruct c as [|[|c]]; cbn; rewrite !H; ring. Qed.
    (** planar polygon: the normal is parallel to every normal of its plane *)
    Theorem newell_planar c n k l : (forall v, In v l -> dot3 n v == k) -> cross3 c n (newell l) == zero.
    Proof.
      intros P.
      assert (H : cross3 c n (newell l) == - mhalf * esum (fun a b => cross3 c n (fun i => cross3 i a b)) (poly_edges l)).
      { assert (G : forall es, cross3 c n (fun i => esum (cross3 i) es) == esum (fun a b => cross3 c n (fun i => cross3 i a b)) es).
        { induction es as [|[a b] es IH].
          - destruct c as [|[|c]]; cbn; ring.
          - cbn [TriSpec.esum]. rewrite <- IH. destruct c as [|[|c]]; cbn; ring. }
        rewrite <- G. apply cross3_lin. intros i. apply newell_cross. }
      rewrite H. clear H.
      assert (J : forall e, In e (poly_edges l) -> In (fst e) l /\ In (snd e) l).
      { intros [a b] I. destruct l as [|x r]; [destruct I|]. cbn [poly_edges] in I. split.
        - eapply in_combine_l; exact I.
        - apply in_combine_r in I. apply in_app_or in I. cbn. destruct I as [I|[I|[]]]; auto. }
      assert (G : forall es, (forall e, In e es -> In (fst e) l /\ In (snd e) l) ->
        esum (fun a b => cross3 c n (fun i => cross3 i a b)) es == esum (fun a b => (- k * (b (if Nat.ltb c 2 then c else 2))) - (- k * (a (if Nat.ltb c 2 then c else 2)))) es).
      { induction es as [|[a b] es IH]; intros Je; [reflexivity|]. cbn [TriSpec.esum]. rewrite IH by (intros e I; apply Je; right; exact I).
        destruct (Je (a, b)) as [Ia Ib]; [left; reflexivity|]. cbn [fst snd] in *.
        pose proof (P _ Ia) as Pa. pose proof (P _ Ib) as Pb. 
        apply add_proper; [|reflexivity]. rewrite <- Pb at 2. rewrite <- Pa. unfold AlgSpec.dot3.
        destruct c as [|[|c]]; cbn; ring. }
      rewrite (G _ J), (esum_tele (fun a : vec => - k * a (if Nat.ltb c 2 then c else 2))). ring.
    Qed.
  End Newell.
End AlgProofs.
