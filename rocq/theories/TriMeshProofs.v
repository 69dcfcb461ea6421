(** Proofs about the triangulation of a mesh. *)
From Coq Require Import List Arith Lia ZArith Bool Permutation.
From Verif Require Import Base DVec DVecFacts Mesh MeshMore Spec Rep Cycle Traverse MeshSpec MeshProofs MeshProofs2 MeshFacts Topo TopoSpec TopoProofs NetProofs IsoProofs.
From Verif Require AlgProofs ImportProofs.
From Verif Require Import Tess TriSpec TriFacts TessProofs MinWeightSpec MinWeightProofs DynamicProofs Buffer BufferSpec BufferProofs WindingProofs ExportProofs TriMesh TriMeshSpec.
Import ListNotations.
Set Implicit Arguments.
Unset Strict Implicit.
Local Arguments abs : simpl never.

(** ** Counting directed edges *)
Lemma net_neg (es : list (nat * nat)) a b : net es b a = (- net es a b)%Z.
Proof. unfold net. lia. Qed.
Lemma net_rev_poly (l : list nat) T a b : triangulates (rev l) T ->
  net (flat_map (@tri_edges nat) T) a b = (- net (poly_edges l) a b)%Z.
Proof.
  intros H. apply triangulates_mirror in H. rewrite rev_involutive in H. apply triangulates_covers in H.
  specialize (H a b). rewrite <- H. rewrite WindingProofs.net_flip. lia.
Qed.

Section Sides.
  Context {VP EP FP : Type}.
  Notation graph := (graph VP EP FP).
  Implicit Types (g : graph) (m : mesh VP EP FP).

  Lemma arrows_app g l l' : arrows g (l ++ l') = arrows g l ++ arrows g l'.
  Proof. apply map_app. Qed.
  Lemma arrows_perm g l l' : Permutation l l' -> Permutation (arrows g l) (arrows g l').
  Proof. apply Permutation_map. Qed.

  Lemma last_step (x e : nat) t : last (x :: t) e = last t x.
  Proof. revert x. induction t as [|y t IH]; intros x; auto. transitivity (last (y :: t) e); auto. rewrite IH. symmetry. change (last (y :: t) x) with (match t with [] => y | _ => last t x end). destruct t; auto. rewrite <- (IH y). clear. revert n. induction t; intros; cbn in *; auto. Qed.
  (** the pairs of consecutive targets are the half-edges, starting with the second *)
  Lemma chain_arrows g (LG : forall x, lv g x = true -> og g (nx g x) = og g (tw g x)) :
    forall t e z, chain (nx g) e t -> Forall (fun x => lv g x = true) (e :: t) ->
    og g z = og g (tw g (last t e)) ->
    combine (map (fun x => og g (tw g x)) (e :: t)) (map (fun x => og g (tw g x)) t ++ [og g (tw g z)]) = arrows g (t ++ [z]).
  Proof.
    induction t as [|x t IH]; intros e z C F O.
    - cbn in *. rewrite O. reflexivity.
    - destruct C as [E C]. inversion F as [|? ? L F']; subst x. 
      change (arrows g ((nx g e :: t) ++ [z])) with ((og g (nx g e), og g (tw g (nx g e))) :: arrows g (t ++ [z])).
      rewrite <- (IH (nx g e) z); auto.
      + rewrite (LG e L). reflexivity.
      + rewrite O, last_step. reflexivity.
  Qed.
  Lemma loop_arrows g e t : WF g -> loop g (e :: t) -> poly_edges (map (fun x => og g (tw g x)) (e :: t)) = arrows g (t ++ [e]).
  Proof.
    intros W [L C]. rewrite is_cycle_cons in C. destruct C as (_ & C & E). cbn [map poly_edges].
    apply chain_arrows; auto.
    - intros x X. apply (wf_ognx W); auto.
    - apply Forall_forall; auto.
    - assert (X : lv g (last t e) = true).
      { apply L. destruct t as [|x t]; [left; auto|right]. destruct (@List.exists_last _ (x :: t) ltac:(discriminate)) as (u & v & ->).
        rewrite last_last. apply in_or_app. right. left. auto. }
      rewrite <- (wf_ognx W _ X). congruence.
  Qed.
End Sides.

Section Sum.
  Context {VP EP FP : Type}.
  Variable m : mesh VP EP FP.
  Hypothesis Wm : wf m.
  Notation g := (abs m).

  (** the half-edges around a face, in the order of its sides *)
  Lemma face_sides f lb : lvf g f = true -> boundary_vertices g f lb ->
    exists es, poly_edges lb = arrows g es /\ length es = length lb /\ lists_sides g (eq f) es.
  Proof.
    intros L (t & LP & ->). destruct (wf_abs Wm) as [R W]. exists (t ++ [fe g f]). split; [apply loop_arrows; auto|].
    split; [rewrite app_length, map_length; cbn; lia|].
    destruct (face_edges_complete Wm L) as (l & E & ND & IN). destruct (face_num_edges_ok Wm L LP) as [_ E'].
    rewrite E in E'. injection E' as ->.
    assert (P : Permutation (t ++ [fe g f]) (fe g f :: t)) by (symmetry; apply Permutation_cons_append). split.
    - eapply Permutation_NoDup; [symmetry; exact P|auto].
    - intros x. split.
      + intros I. apply (Permutation_in _ P), IN in I as [A B]. split; auto. exists f. auto.
      + intros (A & f' & B & <-). apply (Permutation_in _ (Permutation_sym P)), IN. auto.
  Qed.

  Lemma nodup_both (l1 l2 : list nat) : NoDup l1 -> NoDup l2 -> (forall x, In x l1 -> In x l2 -> False) -> NoDup (l1 ++ l2).
  Proof.
    intros A B D. induction A as [|x l1 NI A IH]; cbn; auto. constructor.
    - rewrite in_app_iff. intros [|I]; auto. apply (D x); cbn; auto.
    - apply IH. intros y Y. apply D. right. auto.
  Qed.
  Lemma sides_app (P Q : nat -> Prop) l1 l2 : (forall f, P f -> ~ Q f) -> lists_sides g P l1 -> lists_sides g Q l2 ->
    lists_sides g (fun f => P f \/ Q f) (l1 ++ l2).
  Proof.
    intros D [N1 I1] [N2 I2]. split.
    - apply nodup_both; auto. intros x X Y. apply I1 in X as (_ & f & F & X). apply I2 in Y as (_ & f' & F' & Y).
      assert (f' = f) by congruence. subst. apply (D f); auto.
    - intros x. rewrite in_app_iff, I1, I2. split.
      + intros [(A & f & B & C)|(A & f & B & C)]; (split; [auto|exists f; auto]).
      + intros (A & f & B & [C|C]); [left|right]; (split; [auto|exists f; auto]).
  Qed.
  Lemma sides_ext (P Q : nat -> Prop) l : (forall f, P f <-> Q f) -> lists_sides g P l -> lists_sides g Q l.
  Proof. intros E [N I]. split; auto. intros x. rewrite I. split; intros (A & f & B & C); (split; [auto|]; exists f; split; auto; apply E; auto). Qed.
  Lemma sides_none (P : nat -> Prop) : (forall f, ~ P f) -> lists_sides g P [].
  Proof. intros N. split; [constructor|]. intros x. split; [intros []|]. intros (_ & f & _ & X). apply (N f X). Qed.

  Definition turn (r : bool) (lb : list nat) : list nat := if r then rev lb else lb.
  Lemma sides_sum (r : nat -> bool) : forall l Ts, NoDup l -> Forall (fun f => lvf g f = true) l ->
    Forall2 (fun f t => exists lb, boundary_vertices g f lb /\ triangulates (turn (r f) lb) t) l Ts ->
    exists E1 E2, lists_sides g (fun f => In f l /\ r f = false) E1 /\ lists_sides g (fun f => In f l /\ r f = true) E2 /\
      length (concat Ts) + 2 * length l = length E1 + length E2 /\
      forall a b, net (flat_map (@tri_edges nat) (concat Ts)) a b = (net (arrows g E1) a b - net (arrows g E2) a b)%Z.
  Proof.
    intros l Ts N A F. revert N A. induction F as [|f t l Ts (lb & B & T) F IH]; intros N A.
    - exists [], []. split; [apply sides_none; intros f [[] _]|]. split; [apply sides_none; intros f [[] _]|]. split; [reflexivity|].
      intros a b. reflexivity.
    - inversion N as [|? ? NI N']; inversion A as [|? ? L A']; subst.
      destruct (IH N' A') as (E1 & E2 & S1 & S2 & C & NT). destruct (face_sides L B) as (es & PE & LE & SE).
      assert (LT : length t + 2 = length es).
      { pose proof (triangulates_length T) as X. rewrite LE. unfold turn in X. destruct (r f); rewrite ?rev_length in X; lia. }
      assert (D : forall b, (forall f', f = f' -> ~ (In f' l /\ r f' = b))) by (intros b f' <- [X _]; auto).
      destruct (r f) eqn:RF.
      + exists E1, (es ++ E2). split; [|split; [|split]].
        * eapply sides_ext; [|exact S1]. intros k. cbn. split; [tauto|]. intros [[<-|I] X]; [congruence|auto].
        * eapply sides_ext; [|exact (sides_app (D true) SE S2)]. intros k. cbn. split; [intros [<-|[]]; auto|]. intros [[<-|I] X]; auto.
        * cbn [concat length]. rewrite !app_length. lia.
        * intros a b. cbn [concat]. rewrite flat_map_app, !net_app, NT, arrows_app, net_app. rewrite (net_rev_poly a b T), PE. lia.
      + exists (es ++ E1), E2. split; [|split; [|split]].
        * eapply sides_ext; [|exact (sides_app (D false) SE S1)]. intros k. cbn. split; [intros [<-|[]]; auto|]. intros [[<-|I] X]; auto.
        * eapply sides_ext; [|exact S2]. intros k. cbn. split; [tauto|]. intros [[<-|I] X]; [congruence|auto].
        * cbn [concat length]. rewrite !app_length. lia.
        * intros a b. cbn [concat]. rewrite flat_map_app, !net_app, NT, arrows_app, net_app, (triangulates_covers T a b). cbn [turn]. rewrite PE. lia.
  Qed.

  (** ** Closed meshes *)
  Lemma closed_sides es : closed g -> lists_sides g (fun _ => True) es -> Permutation es (edge_ids m).
  Proof.
    intros C [N I]. apply NoDup_Permutation; auto; [apply edge_ids_nodup; auto|]. intros e. rewrite I, edge_ids_live by auto. split; [tauto|].
    intros L. split; auto. pose proof (C e L). destruct (fc g e) as [f|]; [eauto|tauto].
  Qed.
  Lemma twins_perm es : NoDup es -> (forall e, In e es -> lv g e = true /\ In (tw g e) es) -> Permutation (map (tw g) es) es.
  Proof.
    intros ND H. destruct (wf_abs Wm) as [R W]. apply NoDup_Permutation; auto.
    - apply nodup_map_inj; auto. intros x y X Y E. apply H in X as [X _], Y as [Y _].
      rewrite <- (wf_twtw W _ X), <- (wf_twtw W _ Y). congruence.
    - intros e. rewrite in_map_iff. split.
      + intros (x & <- & X). apply H; auto.
      + intros L. exists (tw g e). destruct (H _ L). split; auto. apply W; auto.
  Qed.
  Lemma twins_net es a b : NoDup es -> (forall e, In e es -> lv g e = true /\ In (tw g e) es) -> net (arrows g es) a b = 0%Z.
  Proof.
    intros ND H. destruct (wf_abs Wm) as [R W]. pose proof (net_perm a b (arrows_perm g (twins_perm ND H))) as E.
    assert (X : arrows g (map (tw g) es) = map (fun e => (snd e, fst e)) (arrows g es)).
    { unfold arrows. rewrite !map_map. apply map_ext_in. intros e I. apply H in I as [I _]. cbn. rewrite (wf_twtw W _ I). reflexivity. }
    rewrite X, AlgProofs.net_swap in E. lia.
  Qed.
  Lemma closed_net es a b : closed g -> lists_sides g (fun _ => True) es -> net (arrows g es) a b = 0%Z.
  Proof.
    intros C [N I]. destruct (wf_abs Wm) as [R W]. apply twins_net; auto. intros e J. apply I in J as [L _]. split; auto. apply I.
    assert (LT : lv g (tw g e) = true) by (apply W; auto). split; auto. pose proof (C _ LT). destruct (fc g (tw g e)) as [f|]; [eauto|tauto].
  Qed.
  (** without parallel edges a half-edge occurs as often as it is listed *)
  Lemma cnt_arrows es e : no_parallel g -> lv g e = true -> NoDup es -> Forall (fun x => lv g x = true) es ->
    cnt (arrows g es) (og g e) (og g (tw g e)) = (if in_dec Nat.eq_dec e es then 1 else 0)%Z.
  Proof.
    intros NP L ND A. unfold cnt. induction ND as [|x es NI ND IH]; [reflexivity|]. inversion A as [|? ? LX A']; subst. specialize (IH A').
    cbn [arrows map filter fst snd]. fold (arrows g es).
    destruct (Nat.eqb_spec (og g x) (og g e)) as [E1|E1]; [destruct (Nat.eqb_spec (og g (tw g x)) (og g (tw g e))) as [E2|E2]|]; cbn [andb].
    - assert (x = e) by (apply NP; auto). subst x. cbn [length]. destruct (in_dec Nat.eq_dec e es); [tauto|].
      destruct (in_dec Nat.eq_dec e (e :: es)) as [|N]; [lia|]. destruct N. left. auto.
    - rewrite IH. destruct (in_dec Nat.eq_dec e es) as [I|I], (in_dec Nat.eq_dec e (x :: es)) as [J|J]; auto; exfalso.
      + apply J. right. auto.
      + destruct J as [->|]; auto.
    - rewrite IH. destruct (in_dec Nat.eq_dec e es) as [I|I], (in_dec Nat.eq_dec e (x :: es)) as [J|J]; auto; exfalso.
      + apply J. right. auto.
      + destruct J as [->|]; auto.
  Qed.
  Lemma face_size_det f n n' : lvf g f = true -> face_size g f n -> face_size g f n' -> n = n'.
  Proof.
    intros L (l & B & <-) (l' & B' & <-). pose proof (boundary_face_vertices Wm L B) as X.
    rewrite (boundary_face_vertices Wm L B') in X. injection X as ->. auto.
  Qed.
End Sum.

Section Alg.
  Variables (P S W : Type) (pos2 : nat -> option (nat -> P)) (planar convex_face simple : nat -> bool).
  Variables (ds : P -> P -> S) (le : S -> S -> bool) (cv : P -> P -> P -> bool).
  Variables (inside3 : P -> P -> P -> P -> bool) (collinear : P -> P -> P -> bool) (rnd : nat -> nat).
  Variables (addW : W -> W -> W) (ltW : W -> W -> bool) (zeroW : W) (distance : P -> P -> W).
  Variable valid_diagonal : nat -> nat -> nat -> bool.
  Variables (sweep : mono -> list (P * nat) -> res (list tri3)) (delaunay : nat -> list (P * nat) -> res (list tri3)).
  Context {VP EP FP : Type}.
  Variable m : mesh VP EP FP.
  Hypothesis Wm : wf m.
  Notation g := (abs m).
  Notation small := (try_min_weight_small pos2 ds le cv).
  Notation tface := (triangulate_face pos2 planar convex_face simple ds le cv inside3 collinear rnd addW ltW zeroW distance valid_diagonal sweep delaunay).
  Notation face dbg alg := (face_triangles pos2 planar convex_face simple ds le cv inside3 collinear rnd addW ltW zeroW distance valid_diagonal sweep delaunay dbg alg m).
  Notation ids dbg alg := (triangulate_ids pos2 planar convex_face simple ds le cv inside3 collinear rnd addW ltW zeroW distance valid_diagonal sweep delaunay dbg alg m).
  Notation export dbg alg blank := (triangulate pos2 planar convex_face simple ds le cv inside3 collinear rnd addW ltW zeroW distance valid_diagonal sweep delaunay dbg alg blank m).
  Notation good_weights := (weights addW ltW zeroW).
  Notation good_sweep := (forall k, sound (sweep k)).
  Notation good_delaunay := (forall f, sound (delaunay f)).
  Definition is_ear (alg : algorithm) : bool := match alg with EarClipping => true | _ => false end.

  Lemma map_vec2s f vs us : vec2s pos2 f vs = Ok us -> map snd us = vs.
  Proof. unfold vec2s. destruct (pos2 f); [|discriminate]. cbn. intros [= <-]. rewrite map_map. cbn. apply map_id. Qed.
  Lemma length_vec2s f vs us : vec2s pos2 f vs = Ok us -> length us = length vs.
  Proof. intros H. rewrite <- (map_vec2s H), map_length. reflexivity. Qed.
  Lemma vec2s_ok f vs : pos2 f <> None -> exists us, vec2s pos2 f vs = Ok us.
  Proof. unfold vec2s. destruct (pos2 f); [|tauto]. cbn. eauto. Qed.
  Lemma vec2s_none f vs : pos2 f = None -> vec2s pos2 f vs = Panic.
  Proof. unfold vec2s. intros ->. reflexivity. Qed.

  Lemma small_cases f vs : 3 <= length vs ->
    (length vs <= 4 /\ exists T, small f (length vs) vs = Ok (Some T) /\ triangulates vs T) \/ (4 < length vs /\ small f (length vs) vs = Ok None) \/
    (4 <= length vs <= 6 /\ pos2 f = None /\ small f (length vs) vs = Panic).
  Proof.
    intros L. unfold try_min_weight_small. destruct (Nat.eqb_spec (length vs) 3) as [E|N].
    - left. split; [lia|]. destruct vs as [|a [|b [|c [|]]]]; try discriminate. exists [(a, b, c)]. split; auto. apply triangulates_tri.
    - destruct ((length vs <=? 3) || (6 <? length vs)) eqn:B.
      + right. left. apply orb_true_iff in B. rewrite Nat.leb_le, Nat.ltb_lt in B. split; [lia|auto].
      + apply orb_false_iff in B. rewrite Nat.leb_gt, Nat.ltb_ge in B.
        destruct (pos2 f) eqn:PF; [|right; right; rewrite vec2s_none by auto; split; [lia|auto]].
        destruct (@vec2s_ok f vs ltac:(congruence)) as (us & EU). rewrite EU. cbn [bind].
        destruct (small_total ds le cv us) as (o & E & I). rewrite (length_vec2s EU) in I. rewrite E.
        destruct o as [T|].
        * left. split; [|exists T; split; auto; rewrite <- (map_vec2s EU); eapply small_ok; eauto].
          destruct (Nat.le_gt_cases (length vs) 4); auto. assert (X : Some T = None) by (apply I; lia). discriminate X.
        * right. left. split; auto. destruct (proj1 I eq_refl). lia.
  Qed.

  Lemma tface_ok dbg alg f vs T : good_weights -> good_sweep -> good_delaunay -> tface dbg alg f (length vs) vs = Ok T ->
    3 <= length vs /\ triangulates (turn (is_ear alg && (4 <? length vs)) vs) T.
  Proof.
    intros GW GS GD. unfold triangulate_face. destruct (Nat.leb_spec 3 (length vs)) as [L|]; [|discriminate]. cbn [assert]. intros H. split; auto.
    destruct (small_cases f L) as [(L4 & T' & E & TR)|[[L4 E]|(_ & _ & E)]]; rewrite E in H; cbn [bind] in H; [| |discriminate H].
    - injection H as <-. destruct (Nat.ltb_spec 4 (length vs)); [lia|]. rewrite andb_false_r. exact TR.
    - destruct (Nat.ltb_spec 4 (length vs)); [|lia]. rewrite andb_true_r.
      destruct alg; cbn [is_ear turn] in *; try discriminate H.
      + eapply fan_ok; [exact H|lia].
      + unfold ear_clipping in H. inv_ok H. apply bind_ok in H as (us & EV & H). rewrite <- (map_vec2s EV). eapply ear_ok; [rewrite (length_vec2s EV); auto|exact H].
      + unfold sweep_line in H. inv_ok H. apply bind_ok in H as (us & EV & H). rewrite <- (map_vec2s EV). exact (GS _ _ _ H).
      + unfold sweep_line in H. inv_ok H. apply bind_ok in H as (us & EV & H). rewrite <- (map_vec2s EV). exact (GS _ _ _ H).
      + unfold sweep_line in H. inv_ok H. apply bind_ok in H as (us & EV & H). rewrite <- (map_vec2s EV). exact (GS _ _ _ H).
      + apply bind_ok in H as (us & EV & H). rewrite <- (map_vec2s EV). exact (GD _ _ _ H).
      + apply bind_ok in H as (us & EV & H). rewrite <- (map_vec2s EV). eapply weight_tri; eauto.
      + apply bind_ok in H as (us & EV & H). rewrite <- (map_vec2s EV). exact (GD _ _ _ H).
  Qed.

  Lemma face_eq dbg alg f vs : lvf g f = true -> boundary_vertices g f vs -> face dbg alg f = tface dbg alg f (length vs) vs.
  Proof.
    intros L B. unfold face_triangles. rewrite (boundary_face_vertices Wm L B). destruct B as (es & LP & ->).
    destruct (face_num_edges_ok Wm L LP) as [-> _]. cbn [bind]. rewrite map_length. reflexivity.
  Qed.

  Lemma ids_split dbg alg : forall l out T, foldM (fun out f => let* t := face dbg alg f in Ok (out ++ t)) l out = Ok T ->
    exists Ts, T = out ++ concat Ts /\ Forall2 (fun f t => face dbg alg f = Ok t) l Ts.
  Proof.
    induction l as [|f l IH]; intros out T H; cbn in H.
    - injection H as <-. exists []. cbn. rewrite app_nil_r. auto.
    - inv_ok H. inv_ok H0. destruct (IH _ _ H) as (Ts & -> & F). exists (a0 :: Ts). injection H0 as <-. cbn. rewrite app_assoc. auto.
  Qed.
  Lemma ids_all dbg alg : forall l out Ts, Forall2 (fun f t => face dbg alg f = Ok t) l Ts ->
    foldM (fun out f => let* t := face dbg alg f in Ok (out ++ t)) l out = Ok (out ++ concat Ts).
  Proof.
    intros l out Ts F. revert out. induction F as [|f t l Ts E F IH]; intros out; cbn; [rewrite app_nil_r; auto|].
    rewrite E. cbn [bind]. rewrite IH, app_assoc. auto.
  Qed.
  Lemma tri_in (p : list nat) T : triangulates p T -> forall v, In v (flatten T) -> In v p.
  Proof.
    intros (a & l & b & -> & H). induction H as [a b|a l1 k l2 b T1 T2 H1 I1 H2 I2|a l b T T' Pm H IH|a l b x y z T H IH]; intros v I.
    - destruct I.
    - unfold flatten in *. cbn [flat_map] in I. rewrite flat_map_app in I. cbn [app] in I. cbn. rewrite !in_app_iff. cbn.
      destruct I as [<-|[<-|[<-|I]]]; auto. apply in_app_or in I as [I|I]; [apply I1 in I|apply I2 in I]; cbn in I; rewrite in_app_iff in I; cbn in I; tauto.
    - apply IH. unfold flatten in *. apply in_flat_map in I as (t & I & J). apply in_flat_map. exists t. split; auto. eapply Permutation_in; [symmetry; exact Pm|auto].
    - apply IH. unfold flatten in *. cbn in *. tauto.
  Qed.

  Lemma ids_faces dbg alg T : good_weights -> good_sweep -> good_delaunay -> ids dbg alg = Ok T ->
    face_by_face g (fun n => is_ear alg && (4 <? n)) (face_ids m) T /\ every_size g (fun n => 3 <= n).
  Proof.
    intros GW GS GD H. destruct (ids_split H) as (Ts & -> & F). cbn [app].
    assert (K : forall f t l, lvf g f = true -> boundary_vertices g f l -> face dbg alg f = Ok t -> 3 <= length l /\ triangulates (turn (is_ear alg && (4 <? length l)) l) t).
    { intros f t l L B E. rewrite (face_eq dbg alg L B) in E. exact (tface_ok GW GS GD E). }
    split.
    - exists Ts. split; auto.
      assert (LV : Forall (fun f => lvf g f = true) (face_ids m)) by (apply Forall_forall; intros f; apply face_ids_live; auto).
      revert LV. clear H. induction F as [|f t fs Ts E F IH]; intros LV; constructor; inversion LV as [|? ? L LV']; subst; auto.
      destruct (boundary_exists Wm L) as (l & B). exists l. split; auto. apply (K _ _ _ L B E).
    - intros f n L (l & B & <-). apply face_ids_live in L as I; auto.
      assert (exists t, face dbg alg f = Ok t) as [t E].
      { revert I. clear - F. induction F as [|f' t fs Ts E F IH]; intros []; subst; eauto. }
      apply (K _ _ _ L B E).
  Qed.
  Lemma face_count : num_faces m = length (face_ids m).
  Proof. destruct Wm as (_ & _ & C & _). unfold num_faces, face_ids. rewrite (len_iter C), map_length. cbn. lia. Qed.

  Lemma ids_sides dbg alg T : good_weights -> good_sweep -> good_delaunay -> ids dbg alg = Ok T ->
    exists E1 E2, lists_sides g (fun f => exists n, face_size g f n /\ is_ear alg && (4 <? n) = false) E1 /\
      lists_sides g (fun f => exists n, face_size g f n /\ is_ear alg && (4 <? n) = true) E2 /\
      length T + 2 * num_faces m = length E1 + length E2 /\
      forall a b, net (flat_map (@tri_edges nat) T) a b = (net (arrows g E1) a b - net (arrows g E2) a b)%Z.
  Proof.
    intros GW GS GD H. destruct (ids_faces GW GS GD H) as [(Ts & -> & F) _]. destruct (wf_abs Wm) as [R WF].
    set (r := fun f => match face_vertices m f with Ok l => is_ear alg && (4 <? length l) | _ => false end).
    assert (LV : Forall (fun f => lvf g f = true) (face_ids m)) by (apply Forall_forall; intros f; apply face_ids_live; auto).
    assert (RF : forall f l, lvf g f = true -> boundary_vertices g f l -> r f = is_ear alg && (4 <? length l)).
    { intros f l L B. unfold r. rewrite (boundary_face_vertices Wm L B). reflexivity. }
    destruct (@sides_sum _ _ _ m Wm r (face_ids m) Ts) as (E1 & E2 & S1 & S2 & C & NT); auto.
    { apply face_ids_nodup; auto. }
    { clear - F LV RF. induction F as [|f t fs Ts (l & B & TR) F IH]; constructor; inversion LV as [|? ? L LV']; subst; auto.
      exists l. split; auto. rewrite (RF _ _ L B). exact TR. }
    assert (Q : forall b f e, lv g e = true -> fc g e = Some f -> (In f (face_ids m) /\ r f = b <-> exists n, face_size g f n /\ is_ear alg && (4 <? n) = b)).
    { intros b f e L E. destruct (wf_fc WF _ L E) as [LF _]. destruct (boundary_exists Wm LF) as (l & B). rewrite (RF _ _ LF B). split.
      - intros [_ X]. exists (length l). split; auto. exists l. auto.
      - intros (n & SZ & X). split; [apply face_ids_live; auto|]. assert (LN : n = length l) by (eapply face_size_det; eauto; exists l; auto). subst n. exact X. }
    exists E1, E2. split; [|split; [|split; [rewrite face_count; exact C|exact NT]]].
    - destruct S1 as [N I]. split; auto. intros e. rewrite I. split; intros (L & f & E & X); (split; [auto|]; exists f; split; auto; apply (Q _ _ _ L E); exact X).
    - destruct S2 as [N I]. split; auto. intros e. rewrite I. split; intros (L & f & E & X); (split; [auto|]; exists f; split; auto; apply (Q _ _ _ L E); exact X).
  Qed.

  Lemma sized f : lvf g f = true -> exists n, face_size g f n.
  Proof. intros L. destruct (boundary_exists Wm L) as (l & B). exists (length l), l. auto. Qed.

  (** All algorithms except ear clipping. *)
  Lemma ids_covers dbg alg T : good_weights -> good_sweep -> good_delaunay -> alg <> EarClipping -> ids dbg alg = Ok T ->
    face_by_face g (fun _ => false) (face_ids m) T /\
    exists es, lists_sides g (fun _ => True) es /\ length T + 2 * num_faces m = length es /\
      forall a b, net (flat_map (@tri_edges nat) T) a b = net (arrows g es) a b.
  Proof.
    intros GW GS GD NE H. assert (EA : is_ear alg = false) by (destruct alg; auto; tauto). destruct (wf_abs Wm) as [R WF]. split.
    - destruct (ids_faces GW GS GD H) as [X _]. rewrite EA in X. exact X.
    - destruct (ids_sides GW GS GD H) as (E1 & E2 & [N1 I1] & [N2 I2] & C & NT). rewrite EA in I1, I2. cbn [andb] in *.
      assert (E2 = []) as ->. { destruct E2 as [|e E2]; auto. destruct (proj1 (I2 e) (or_introl eq_refl)) as (_ & f & _ & n & _ & X). discriminate X. }
      exists E1. split; [split; auto|split].
      + intros e. rewrite I1. split; [intros (L & f & E & _); eauto|]. intros (L & f & E & _). split; auto. exists f. split; auto.
        destruct (wf_fc WF _ L E) as [LF _]. destruct (sized LF) as (n & SZ). eauto.
      + rewrite C. cbn [length]. lia.
      + intros a b. rewrite NT. cbn [arrows map]. rewrite net_nil. lia.
  Qed.
  Lemma ids_live dbg alg T : good_weights -> good_sweep -> good_delaunay -> ids dbg alg = Ok T -> Forall (fun v => lvv g v = true) (flatten T).
  Proof.
    intros GW GS GD H. destruct (ids_faces GW GS GD H) as [(Ts & -> & F) _]. clear H. apply Forall_forall. intros v I.
    induction F as [|f t fs Ts (l & B & TR) F IH]; [destruct I|]. cbn [concat] in I. unfold flatten in I. rewrite flat_map_app in I.
    apply in_app_or in I as [I|I]; [|auto]. apply (tri_in TR) in I.
    assert (J : In v l) by (destruct (is_ear alg && (4 <? length l)); [apply in_rev|]; auto).
    pose proof (boundary_live Wm B) as X. rewrite Forall_forall in X. auto.
  Qed.
  Lemma export_ids dbg alg blank ix out : export dbg alg blank = Ok (ix, out) <->
    exists T, ids dbg alg = Ok T /\ ix = flatten T /\ dense_vertices blank m (flatten T) = Ok (out, flatten T).
  Proof.
    assert (D : forall ix, exists o, dense_vertices blank m ix = Ok (o, ix)).
    { intros i. destruct Wm as (_ & V & _). destruct (Nat.eq_dec (d_len (verts m)) (d_cap (verts m))) as [E|E].
      - destruct (dense_ok blank i V E) as (o & X & _). eauto.
      - rewrite sparse_ok by auto. eauto. }
    unfold triangulate. destruct (ids dbg alg) as [T| |]; cbn [bind].
    - fold (flatten T). destruct (D (flatten T)) as (o & E). rewrite E. cbn [bind]. split.
      + intros [= <- <-]. exists T. auto.
      + intros (T' & E1 & -> & E2). injection E1 as <-. rewrite E in E2. injection E2 as <-. reflexivity.
    - split; [discriminate|]. intros (T & X & _). discriminate X.
    - split; [discriminate|]. intros (T & X & _). discriminate X.
  Qed.

  Lemma triangulate_covers dbg alg blank ix out : good_weights -> good_sweep -> good_delaunay -> alg <> EarClipping ->
    export dbg alg blank = Ok (ix, out) ->
    exists T, ix = flatten T /\ face_by_face g (fun _ => false) (face_ids m) T /\ Forall (fun v => lvv g v = true) ix /\
      exists es, lists_sides g (fun _ => True) es /\ length T + 2 * num_faces m = length es /\
        forall a b, net (flat_map (@tri_edges nat) T) a b = net (arrows g es) a b.
  Proof.
    intros GW GS GD NE H. apply export_ids in H as (T & E & -> & _). exists T. split; auto.
    destruct (ids_covers GW GS GD NE E) as [A B]. split; auto. split; auto. eapply ids_live; eauto.
  Qed.
  Lemma triangulate_closed dbg alg blank ix out : good_weights -> good_sweep -> good_delaunay -> alg <> EarClipping -> closed g ->
    export dbg alg blank = Ok (ix, out) ->
    exists T, ix = flatten T /\ watertight T /\ length T + 2 * num_faces m = num_edges m.
  Proof.
    intros GW GS GD NE C H. destruct (triangulate_covers GW GS GD NE H) as (T & -> & _ & _ & es & SI & L & NT). exists T. split; auto. split.
    - intros a b. rewrite NT. apply closed_net; auto.
    - rewrite L, (num_edges_ids Wm). apply Permutation_length. apply closed_sides; auto.
  Qed.

  (** ** Ear clipping *)
  Lemma ear_sides dbg T : ids dbg EarClipping = Ok T -> good_weights -> good_sweep -> good_delaunay ->
    exists E1 E2, lists_sides g (fun f => exists n, face_size g f n /\ n <= 4) E1 /\ lists_sides g (fun f => exists n, face_size g f n /\ 4 < n) E2 /\
      length T + 2 * num_faces m = length E1 + length E2 /\
      forall a b, net (flat_map (@tri_edges nat) T) a b = (net (arrows g E1) a b - net (arrows g E2) a b)%Z.
  Proof.
    intros H GW GS GD. destruct (ids_sides GW GS GD H) as (E1 & E2 & S1 & S2 & X). exists E1, E2. cbn [is_ear andb] in *. split; [|split; auto].
    - eapply sides_ext; [|exact S1]. intros f. cbv beta. split; intros (n & A & B); exists n; (split; [auto|]); [apply Nat.ltb_ge in B; lia|apply Nat.ltb_ge; lia].
    - eapply sides_ext; [|exact S2]. intros f. cbv beta. split; intros (n & A & B); exists n; (split; [auto|]); apply Nat.ltb_lt; auto.
  Qed.
  Lemma ear_watertight dbg T : good_weights -> good_sweep -> good_delaunay -> closed g -> no_parallel g -> ids dbg EarClipping = Ok T ->
    (watertight T <-> forall e, lv g e = true -> small_side g e -> small_side g (tw g e)).
  Proof.
    intros GW GS GD C NP H. destruct (ear_sides H GW GS GD) as (E1 & E2 & [N1 I1] & [N2 I2] & _ & NT). destruct (wf_abs Wm) as [R WF].
    assert (J1 : forall e, In e E1 <-> lv g e = true /\ small_side g e).
    { intros e. rewrite I1. unfold small_side. split; [intros (A & f & B & n & X & Y); split; auto; exists f, n; auto|]. intros (A & f & n & B & X & Y). eauto 6. }
    assert (J2 : forall e, In e E2 <-> lv g e = true /\ ~ small_side g e).
    { intros e. rewrite I2. split.
      - intros (L & f & E & n & SZ & X). split; auto. intros (f' & n' & E' & SZ' & X'). assert (f' = f) by congruence. subst f'.
        destruct (wf_fc WF _ L E) as [LF _]. pose proof (face_size_det Wm LF SZ SZ'). lia.
      - intros (L & X). split; auto. pose proof (C e L) as CE. destruct (fc g e) as [f|] eqn:E; [|tauto]. exists f. split; auto.
        destruct (wf_fc WF _ L E) as [LF _]. destruct (sized LF) as (n & SZ). exists n. split; auto.
        destruct (Nat.le_gt_cases n 4); auto. destruct X. exists f, n. auto. }
    split.
    - intros WT e L SS. destruct (in_dec Nat.eq_dec (tw g e) E1) as [I|NI]; [apply J1 in I; tauto|]. exfalso.
      assert (LT : lv g (tw g e) = true) by (apply WF; auto).
      assert (A1 : Forall (fun x => lv g x = true) E1) by (apply Forall_forall; intros x X; apply J1 in X; tauto).
      assert (A2 : Forall (fun x => lv g x = true) E2) by (apply Forall_forall; intros x X; apply J2 in X; tauto).
      pose proof (cnt_arrows NP L N1 A1) as C1. pose proof (cnt_arrows NP LT N1 A1) as C2.
      pose proof (cnt_arrows NP L N2 A2) as C3. pose proof (cnt_arrows NP LT N2 A2) as C4.
      rewrite (wf_twtw WF _ L) in C2, C4. specialize (WT (og g e) (og g (tw g e))). rewrite NT in WT. unfold net in WT.
      rewrite C1, C2, C3, C4 in WT.
      destruct (in_dec Nat.eq_dec e E1) as [|X]; [|apply X, J1; auto].
      destruct (in_dec Nat.eq_dec (tw g e) E1) as [|_]; [tauto|].
      destruct (in_dec Nat.eq_dec e E2) as [X|_]; [apply J2 in X; tauto|].
      destruct (in_dec Nat.eq_dec (tw g e) E2) as [_|X]; [lia|]. apply X, J2. split; auto. intros Y. apply NI, J1. auto.
    - intros K a b. rewrite NT.
      assert (LT : forall e, lv g e = true -> lv g (tw g e) = true) by (intros; apply WF; auto).
      rewrite (twins_net Wm a b N1), (twins_net Wm a b N2); [reflexivity| |].
      + intros e I. apply J2 in I as [L X]. split; auto. apply J2. split; auto. intros Y. apply X. rewrite <- (wf_twtw WF _ L). apply K; auto.
      + intros e I. apply J1 in I as [L X]. split; auto. apply J1. auto.
  Qed.
  Lemma triangulate_ears dbg blank ix out : good_weights -> good_sweep -> good_delaunay -> closed g -> no_parallel g ->
    export dbg EarClipping blank = Ok (ix, out) ->
    exists T, ix = flatten T /\ face_by_face g (fun n => 4 <? n) (face_ids m) T /\ length T + 2 * num_faces m = num_edges m /\
      (watertight T <-> forall e, lv g e = true -> small_side g e -> small_side g (tw g e)).
  Proof.
    intros GW GS GD C NP H. apply export_ids in H as (T & E & -> & _). exists T. split; auto.
    split; [apply (ids_faces GW GS GD E)|]. split; [|apply (ear_watertight GW GS GD C NP E)].
    destruct (ear_sides E GW GS GD) as (E1 & E2 & S1 & S2 & L & _). transitivity (length E1 + length E2); [exact L|]. rewrite (num_edges_ids Wm), <- app_length. apply Permutation_length.
    destruct (wf_abs Wm) as [R WF].
    assert (D : forall f, (exists n, face_size g f n /\ n <= 4) -> forall e, fc g e = Some f -> lv g e = true -> ~ exists n, face_size g f n /\ 4 < n).
    { intros f (n & A & B) e X Y (n' & A' & B'). destruct (wf_fc WF _ Y X) as [LF _]. pose proof (face_size_det Wm LF A A'). lia. }
    apply NoDup_Permutation; [|apply edge_ids_nodup; auto|].
    - destruct S1 as [N1 I1], S2 as [N2 I2]. apply nodup_both; auto. intros x X Y. apply I1 in X as (A & f & B & X). apply I2 in Y as (_ & f' & B' & Y).
      assert (f' = f) by congruence. subst. apply (D f X x B A Y).
    - intros e. rewrite in_app_iff, edge_ids_live by auto. destruct S1 as [N1 I1], S2 as [N2 I2]. rewrite I1, I2. split; [intros [[]|[]]; auto|].
      intros LE. pose proof (C e LE) as CE. destruct (fc g e) as [f|] eqn:EF; [|tauto]. destruct (wf_fc WF _ LE EF) as [LF _].
      destruct (sized LF) as (n & SZ). destruct (Nat.le_gt_cases n 4); [left|right]; (split; [auto|]); exists f; split; eauto.
  Qed.

  (** ** Success and failure *)
  Lemma small_faces_succeed blank : every_size g (fun n => n = 3 \/ n = 4) -> placed pos2 g (fun n => n = 4) ->
    exists ix out, forall dbg alg, export dbg alg blank = Ok (ix, out).
  Proof.
    intros SZ PL.
    assert (K : forall f, lvf g f = true -> exists t, forall dbg alg, face dbg alg f = Ok t).
    { intros f L. destruct (boundary_exists Wm L) as (l & B). pose proof (SZ f (length l) L (ex_intro _ l (conj B eq_refl))) as X. cbv beta in X.
      destruct (@small_cases f l ltac:(lia)) as [(_ & T & E & _)|[[? _]|(A & PF & _)]]; [|lia|destruct (PL f (length l) L (ex_intro _ l (conj B eq_refl))); auto; lia]. exists T. intros dbg alg. rewrite (face_eq dbg alg L B).
      unfold triangulate_face. destruct (Nat.leb_spec 3 (length l)); [|lia]. cbn [assert]. rewrite E. reflexivity. }
    assert (exists Ts, forall dbg alg, Forall2 (fun f t => face dbg alg f = Ok t) (face_ids m) Ts) as (Ts & F).
    { assert (LV : Forall (fun f => lvf g f = true) (face_ids m)) by (apply Forall_forall; intros f; apply face_ids_live; auto).
      induction LV as [|f fs L LV IH]; [exists []; constructor|]. destruct IH as (Ts & F), (K f L) as (t & E). exists (t :: Ts). intros. constructor; auto. }
    destruct (dense_vertices blank m (flatten (concat Ts))) as [[o i]| |] eqn:DV.
    - exists i, o. intros dbg alg. unfold triangulate, triangulate_ids. rewrite (ids_all [] (F dbg alg)). cbn [bind app]. fold (flatten (concat Ts)). rewrite DV. reflexivity.
    - exfalso. destruct Wm as (_ & V & _). destruct (Nat.eq_dec (d_len (verts m)) (d_cap (verts m))) as [E|E].
      + destruct (dense_ok blank (flatten (concat Ts)) V E) as (o & X & _). congruence.
      + rewrite sparse_ok in DV by auto. discriminate DV.
    - exfalso. destruct Wm as (_ & V & _). destruct (Nat.eq_dec (d_len (verts m)) (d_cap (verts m))) as [E|E].
      + destruct (dense_ok blank (flatten (concat Ts)) V E) as (o & X & _). congruence.
      + rewrite sparse_ok in DV by auto. discriminate DV.
  Qed.
  Lemma some_face dbg alg blank : (forall f, lvf g f = true -> exists t, face dbg alg f = Ok t) -> exists r, export dbg alg blank = Ok r.
  Proof.
    intros K.
    assert (exists Ts, Forall2 (fun f t => face dbg alg f = Ok t) (face_ids m) Ts) as (Ts & F).
    { assert (LV : Forall (fun f => lvf g f = true) (face_ids m)) by (apply Forall_forall; intros f; apply face_ids_live; auto).
      induction LV as [|f fs L LV IH]; [exists []; constructor|]. destruct IH as (Ts & F), (K f L) as (t & E). exists (t :: Ts). constructor; auto. }
    assert (exists o, dense_vertices blank m (flatten (concat Ts)) = Ok (o, flatten (concat Ts))) as (o & E).
    { destruct Wm as (_ & V & _). destruct (Nat.eq_dec (d_len (verts m)) (d_cap (verts m))) as [E|E].
      - destruct (dense_ok blank (flatten (concat Ts)) V E) as (o & X & _). eauto.
      - rewrite sparse_ok by auto. eauto. }
    exists (flatten (concat Ts), o). apply export_ids. exists (concat Ts). split; [|auto]. unfold triangulate_ids. rewrite (ids_all [] F). reflexivity.
  Qed.
  Lemma fan_succeeds dbg blank : every_size g (fun n => 3 <= n) -> placed pos2 g (fun n => 4 <= n <= 6) ->
    (dbg = false \/ forall f, lvf g f = true -> planar f = true /\ convex_face f = true) -> exists r, export dbg Fan blank = Ok r.
  Proof.
    intros SZ PL D. apply some_face. intros f L. destruct (boundary_exists Wm L) as (l & B).
    pose proof (SZ f (length l) L (ex_intro _ l (conj B eq_refl))) as X. cbv beta in X. rewrite (face_eq dbg Fan L B). unfold triangulate_face.
    destruct (Nat.leb_spec 3 (length l)); [|lia]. cbn [assert]. destruct (small_cases f X) as [(_ & T & E & _)|[[_ E]|(A & PF & _)]]; [rewrite E; cbn [bind]; eauto|rewrite E; cbn [bind]|destruct (PL f (length l) L (ex_intro _ l (conj B eq_refl)) A PF)].
    destruct (@fan_total l dbg ltac:(lia)) as [A _]. destruct (@fan_total l dbg ltac:(lia)) as [_ A'].
    destruct D as [-> | D]; [|destruct (D f L) as [-> ->]; exact A]. destruct (planar f && convex_face f); [|exact A'].
    destruct (@fan_total l false ltac:(lia)) as [A0 _]. exact A0.
  Qed.
  Lemma export_sizes dbg alg blank r : export dbg alg blank = Ok r -> every_size g (fun n => 3 <= n).
  Proof.
    intros H. destruct r as [ix out]. apply export_ids in H as (T & E & _). destruct (ids_split E) as (Ts & -> & F).
    intros f n L (l & B & <-). apply face_ids_live in L as I; auto.
    assert (exists t, face dbg alg f = Ok t) as [t X].
    { revert I. clear - F. induction F as [|f' t fs Ts E F IH]; intros []; subst; eauto. }
    rewrite (face_eq dbg alg L B) in X. unfold triangulate_face in X. destruct (Nat.leb_spec 3 (length l)); [auto|discriminate X].
  Qed.
  Lemma todo_face dbg alg f l : alg = EdgeFlip \/ alg = Heuristic -> lvf g f = true -> boundary_vertices g f l ->
    face dbg alg f = Panic \/ exists t, face dbg alg f = Ok t /\ (length l = 3 \/ length l = 4 /\ pos2 f <> None).
  Proof.
    intros A L B. rewrite (face_eq dbg alg L B). unfold triangulate_face. destruct (Nat.leb_spec 3 (length l)) as [X|]; [|auto]. cbn [assert].
    destruct (small_cases f X) as [(L4 & T & E & _)|[[_ E]|(_ & _ & E)]]; rewrite E; cbn [bind].
    - right. exists T. split; auto. assert (O : length l = 3 \/ length l = 4) by lia. destruct O as [O|O]; auto. right. split; auto.
      intros PF. unfold try_min_weight_small in E. rewrite O in E. cbn in E. rewrite vec2s_none in E by auto. discriminate E.
    - left. destruct A as [-> | ->]; reflexivity.
    - auto.
  Qed.
  Lemma todo_algorithms dbg alg blank : alg = EdgeFlip \/ alg = Heuristic ->
    (every_size g (fun n => n = 3 \/ n = 4) /\ placed pos2 g (fun n => n = 4) /\ exists r, export dbg alg blank = Ok r) \/
    (~ (every_size g (fun n => n = 3 \/ n = 4) /\ placed pos2 g (fun n => n = 4)) /\ export dbg alg blank = Panic).
  Proof.
    intros A. destruct (export dbg alg blank) as [[ix out]| |] eqn:E.
    - left.
      assert (K : forall f l, lvf g f = true -> boundary_vertices g f l -> length l = 3 \/ length l = 4 /\ pos2 f <> None).
      { apply export_ids in E as (T & E & _). destruct (ids_split E) as (Ts & -> & F).
        intros f l L B. apply face_ids_live in L as I; auto.
        assert (exists t, face dbg alg f = Ok t) as [t X].
        { revert I. clear - F. induction F as [|f' t fs Ts E F IH]; intros []; subst; eauto. }
        destruct (todo_face dbg A L B) as [Y|(t' & _ & Z)]; [congruence|auto]. }
      split; [|split; [|eauto]].
      + intros f n L (l & B & <-). destruct (K f l L B) as [|[]]; auto.
      + intros f n L (l & B & <-) O. destruct (K f l L B) as [|[]]; auto. lia.
    - right. split; auto. intros [SZ PL]. destruct (small_faces_succeed blank SZ PL) as (ix & out & X). rewrite X in E. discriminate E.
    - exfalso. unfold triangulate in E. destruct (ids dbg alg) as [T| |] eqn:E1; cbn [bind] in E; [|discriminate E|].
      + destruct Wm as (_ & V & _). destruct (Nat.eq_dec (d_len (verts m)) (d_cap (verts m))) as [Q|Q].
        * fold (flatten T) in E. destruct (dense_ok blank (flatten T) V Q) as (o & X & _). rewrite X in E. discriminate E.
        * rewrite sparse_ok in E by auto. discriminate E.
      + unfold triangulate_ids in E1. assert (LV : Forall (fun f => lvf g f = true) (face_ids m)) by (apply Forall_forall; intros f; apply face_ids_live; auto).
        revert E1. generalize (@nil tri3). clear E. induction LV as [|f fs L LV IH]; intros out E; cbn in E; [discriminate E|].
        destruct (boundary_exists Wm L) as (l & B). destruct (todo_face dbg A L B) as [Y|(t' & Y & _)]; rewrite Y in E; cbn [bind] in E; [discriminate E|].
        eapply IH; eauto.
  Qed.
  (** faces that cannot be rotated into the plane *)
  Lemma unplaced dbg alg blank f n : lvf g f = true -> face_size g f n -> 4 <= n <= 6 -> pos2 f = None -> forall r, export dbg alg blank <> Ok r.
  Proof.
    intros L (l & B & <-) A PF [ix out] E. apply export_ids in E as (T & E & _). destruct (ids_split E) as (Ts & -> & F).
    apply face_ids_live in L as I; auto.
    assert (exists t, face dbg alg f = Ok t) as [t X].
    { revert I. clear - F. induction F as [|f' t fs Ts E F IH]; intros []; subst; eauto. }
    rewrite (face_eq dbg alg L B) in X. unfold triangulate_face, try_min_weight_small in X. destruct (Nat.leb_spec 3 (length l)); [|lia].
    destruct (Nat.eqb_spec (length l) 3); [lia|]. destruct (Nat.leb_spec (length l) 3); [lia|]. destruct (Nat.ltb_spec 6 (length l)); [lia|].
    cbn [assert orb] in X. rewrite vec2s_none in X by auto. discriminate X.
  Qed.
  (** the exported vertices *)
  Lemma export_payloads dbg alg blank ix out : d_len (verts m) = d_cap (verts m) -> export dbg alg blank = Ok (ix, out) ->
    length out = num_vertices m /\ forall v, nth_error out v = vp g v.
  Proof.
    intros E H. apply export_ids in H as (T & _ & -> & D). destruct Wm as (_ & V & _).
    destruct (dense_ok blank (flatten T) V E) as (o & X & LO & HA & VA). rewrite D in X. injection X as <-. split; [unfold num_vertices; congruence|].
    intros v. unfold abs. cbn [vp]. destruct (look (verts m) v) as [x|] eqn:LK; cbn [opt].
    - apply VA. rewrite get_look, LK. reflexivity.
    - apply nth_error_None. destruct (Nat.le_gt_cases (length out) v) as [|LV]; auto. specialize (HA v LV). rewrite has_look_b, LK in HA. discriminate HA.
  Qed.
End Alg.
