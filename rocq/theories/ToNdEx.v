(** The conversion into more dimensions over the rationals: the error, and concrete meshes. *)
From Coq Require Import List Arith ZArith QArith Lia Lqa Bool.
From Verif Require Import Base DVec Mesh Spec Rep MeshMore MeshSpec MeshProofs BuildSpec RefineSpec BuildStep DivideProofs MeshEx Alg Transform CurveSpec CurveProofs
  NetProofs Flatten FlattenSpec FlattenProofs TransEx FlattenEx ToNd ToNdSpec ToNdProofs.
Import ListNotations.
Set Implicit Arguments.
Unset Strict Implicit.
Local Arguments abs : simpl never.
Local Open Scope nat_scope.

Lemma norm2_flat D p q : (norm2 D (flat_point 0 p) (flat_point 0 q) <= norm2 2 p q)%Q.
Proof.
  assert (S0 : forall x : Q, (0 <= x * x)%Q) by (intros x; nra).
  destruct D as [|[|D]].
  - apply norm2_nonneg.
  - cbn. pose proof (S0 (p 1%nat - q 1%nat)%Q). lra.
  - induction D as [|D IH].
    + cbn. lra.
    + change (norm2 (S (S (S D))) (flat_point 0%Q p) (flat_point 0%Q q)) with (norm2 (S (S D)) (flat_point 0%Q p) (flat_point 0%Q q) + (0 - 0) * (0 - 0))%Q.
      lra.
Qed.

Theorem to_nd_close fuel D err2 (m : qmesh) EP FP (h : graph (pnu Q) EP FP) pts rv rf pc ws : wf m -> (0 <= err2)%Q ->
  (forall e, curved (abs m) e -> inner (q_flat fuel 2 err2) (abs m) e (pts e)) ->
  (forall e, ~ curved (abs m) e -> pts e = []) ->
  (forall e, pts e <> [] -> ~ curved (abs m) (tw (abs m) e)) ->
  spread_out 0%Q (abs m) h pts rv rf pc ws ->
  forall e a b cv t, curved (abs m) e -> ends (abs m) e a b cv -> (forall c1 c2, cv <> Cubic c1 c2) -> (0 <= t)%Q -> (t <= 1)%Q ->
    exists p x y q u v l, rv (og (abs m) e) :: ws e ++ [rv (target (abs m) e)] = p ++ x :: y :: q /\
      place h x = Some u /\ place h y = Some v /\ (0 <= l)%Q /\ (l <= 1)%Q /\
      (norm2 D (flat_point 0%Q (qpoint cv a b t)) (qlerp u v l) <= err2)%Q.
Proof.
  intros Wm E0 IN NC TE SO e a b cv t C EN NQ T0 T1. pose proof (wfW Wm) as W.
  pose proof C as [Le _].
  destruct (IN e C) as (_ & a' & b' & cv' & EN' & FL).
  assert (cv' = cv /\ a' = a /\ b' = b) as (-> & -> & ->).
  { destruct EN as (A & p & q & P1 & P2 & -> & ->). destruct EN' as (A' & p' & q' & P1' & P2' & -> & ->).
    assert (p = p') by congruence. assert (q = q') by congruence. subst. split; [congruence|auto]. }
  destruct (flatten_error 2 err2 fuel cv a b (pts e) E0 NQ FL) as (ts & EP0 & _ & K).
  destruct (K t T0 T1) as (p & x & y & q & l & SP & L0 & L1 & ER).
  assert (TW : pts (tw (abs m) e) = []).
  { destruct (pts (tw (abs m) e)) as [|z k] eqn:Z; auto. exfalso. apply (TE (tw (abs m) e)); [rewrite Z; discriminate|].
    rewrite (wf_twtw W) by auto. exact C. }
  pose proof (so_pos SO Le) as PO. rewrite TW, app_nil_r, EP0 in PO.
  assert (LN : length (ws e) = length ts).
  { clear -PO. revert PO. generalize (ws e). induction ts as [|s ts IH]; intros l P; inversion P; subst; cbn; auto. }
  assert (CH : forall k s, nth_error (0%Q :: ts ++ [1%Q]) k = Some s ->
    exists z u, nth_error (rv (og (abs m) e) :: ws e ++ [rv (target (abs m) e)]) k = Some z /\ place h z = Some u /\
      forall i, (u i == flat_point 0%Q (qpoint cv a b s) i)%Q).
  { destruct EN as (_ & pa & pb & Pa & Pb & -> & ->).
    intros k s H. destruct k as [|k]; cbn [nth_error] in *.
    - injection H as <-. destruct (so_v SO (v := og (abs m) e)) as (_ & u & u' & U & U' & UE); [apply (wf_og W); auto|].
      exists (rv (og (abs m) e)), u'. split; auto. split; auto. intros i. rewrite UE. unfold place in U. rewrite Pa in U. cbn in U. injection U as <-.
      unfold flat_point. destruct (i <? 2); [|reflexivity]. unfold qpoint, point_at. destruct cv; unfold lerp; ring.
    - destruct (Nat.lt_ge_cases k (length ts)) as [Hk|Hk].
      + rewrite nth_error_app1 in H by auto. rewrite nth_error_app1 by lia.
        destruct (nth_error (ws e) k) as [z|] eqn:Z; [|apply nth_error_None in Z; lia].
        assert (G : forall (ws : list nat) ts, Forall2 (fun v q => exists q', place h v = Some q' /\ forall i, q' i = flat_point 0%Q q i) ws
          (map (qpoint cv (u_pos pa) (u_pos pb)) ts) -> forall k s z, nth_error ts k = Some s -> nth_error ws k = Some z ->
          exists q', place h z = Some q' /\ forall i, q' i = flat_point 0%Q (qpoint cv (u_pos pa) (u_pos pb) s) i).
        { clear. intros ws ts F. remember (map _ ts) as ps eqn:PS. revert ts PS.
          induction F as [|v q ws ps H F IH]; intros [|r ts] PS k s z A B; try discriminate PS; destruct k; cbn in A, B; try discriminate A.
          - injection A as ->. injection B as ->. cbn in PS. injection PS as -> _. exact H.
          - cbn in PS. injection PS as _ PS. apply (IH ts PS k s z A B). }
        destruct (G _ _ PO k s z H Z) as (u & U & UE). exists z, u. split; auto. split; auto. intros i. rewrite UE. reflexivity.
      + rewrite nth_error_app2 in H by auto. rewrite nth_error_app2 by lia. rewrite LN.
        destruct (k - length ts) as [|j]; cbn [nth_error] in *; [|destruct j; discriminate].
        injection H as <-. destruct (so_v SO (v := target (abs m) e)) as (_ & u & u' & U & U' & UE); [apply (wf_og W), (wf_tw W); auto|].
        exists (rv (target (abs m) e)), u'. split; auto. split; auto. intros i. rewrite UE. unfold place in U. rewrite Pb in U. cbn in U. injection U as <-.
        unfold flat_point. destruct (i <? 2); [|reflexivity]. unfold qpoint, point_at. destruct cv; unfold lerp; ring. }
  destruct (split_at SP) as (_ & N1 & N2).
  destruct (CH _ _ N1) as (z1 & u & Z1 & Lu & Eu). destruct (CH _ _ N2) as (z2 & v & Z2 & Lv & Ev).
  destruct (split_nth Z1 Z2) as (p' & q' & SP').
  exists p', z1, z2, q', u, v, l. split; [exact SP'|]. do 4 (split; auto).
  eapply Qle_trans; [|exact ER].
  eapply Qle_trans; [|apply (norm2_flat (D := D))].
  apply Qle_lteq. right. apply norm2_ext; [reflexivity|]. intros i. unfold qlerp at 1, lerp. rewrite (Eu i), (Ev i).
  unfold flat_point, qlerp, lerp. destruct (i <? 2); ring.
Qed.

(** * concrete meshes *)
Definition q_to_nd (fuel : nat) (err2 : Q) (c : cfg) (m : qmesh) := to_nd 0%Q (q_flat fuel 2 err2) c m.
(** the arch of FlattenEx.v can be converted *)
Definition qimportableb (m : qmesh) : bool :=
  forallb (fun v => match ve (abs m) v with None => false | _ => true end) (vertex_ids m) && forallb (fun e => negb (nx (abs m) e =? e)) (edge_ids m).
Lemma qimportableb_ok (m : qmesh) : wf m -> qimportableb m = true -> importable (abs m).
Proof.
  intros Wm B. apply andb_true_iff in B as [B1 B2]. rewrite forallb_forall in B1, B2. split.
  - intros v Lv. apply (vertex_ids_live v Wm) in Lv. specialize (B1 v Lv). destruct (ve (abs m) v); [discriminate|]. discriminate B1.
  - intros e Le. apply (edge_ids_live e Wm) in Le. specialize (B2 e Le). intros E. rewrite E, Nat.eqb_refl in B2. discriminate B2.
Qed.
Lemma arch_importable : importable (abs ex_arch).
Proof. apply qimportableb_ok; [exact arch_wf|vm_compute; reflexivity]. Qed.

(** a vertex without edges *)
Definition ex_single : qmesh := get_ok empty_mesh (let* (m, _) := add_vertex c0 ex_arch (q_at [] [9; 9; 0]%Q) in Ok m).
Theorem single_panics : wf ex_single /\ (forall e, curved (abs ex_single) e -> curved (abs ex_arch) e) /\ q_to_nd 5 1%Q c0 ex_single = Panic.
Proof.
  assert (Ws : wf ex_single) by (apply wfb_ok; vm_compute; reflexivity).
  split; [exact Ws|]. split; [|vm_compute; reflexivity].
  intros e C. rewrite (arch_curved (k := 6) Ws ltac:(vm_compute; reflexivity) ltac:(vm_compute; reflexivity) C).
  split; [vm_compute; reflexivity|]. exists arch. split; [vm_compute; reflexivity|discriminate].
Qed.
Theorem branch_nd : wf ex_branch /\ exists m', q_to_nd 5 1%Q c0 ex_branch = Ok m' /\ ~ wf m'.
Proof.
  split; [apply wfb_ok; vm_compute; reflexivity|].
  set (m' := get_ok empty_mesh (q_to_nd 5 1%Q c0 ex_branch)).
  assert (E : q_to_nd 5 1%Q c0 ex_branch = Ok m').
  { unfold m'. destruct (q_to_nd 5 1%Q c0 ex_branch) eqn:E; [reflexivity|vm_compute in E; discriminate E..]. }
  exists m'. split; [exact E|]. intros Wm. pose proof (wf_pvnx (wfW Wm) 5) as K. vm_compute in K. specialize (K eq_refl). discriminate K.
Qed.
Theorem to_nd_ex : wf ex_arch /\ importable (abs ex_arch) /\
  (forall e, curved (abs ex_arch) e -> inner (q_flat 5 2 1%Q) (abs ex_arch) e (arch_pts e)) /\
  (forall e, ~ curved (abs ex_arch) e -> arch_pts e = []) /\
  (forall e, arch_pts e <> [] -> two_edges (abs ex_arch) e /\ ~ curved (abs ex_arch) (tw (abs ex_arch) e)) /\
  fits c0 ex_arch (2 * list_sum (map (fun e => length (arch_pts e)) (edge_ids ex_arch))) (list_sum (map (fun e => length (arch_pts e)) (edge_ids ex_arch))) 0 /\
  length (arch_pts 0) = 1 /\ curved (abs ex_arch) 0.
Proof.
  destruct flatten_ex as (A & B & C & D & E & F & cv & G & H). rewrite !Nat.add_0_r in E.
  split; [exact A|]. split; [exact arch_importable|]. do 5 (split; auto).
  split; [vm_compute; reflexivity|]. exists cv. split; [exact G|]. intros K. rewrite K in G. vm_compute in G. discriminate G.
Qed.
