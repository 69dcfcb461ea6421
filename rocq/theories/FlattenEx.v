(** Flattening over the rationals: the recursion ends, the error bound, and concrete meshes. *)
From Coq Require Import List Arith ZArith QArith Lia Lqa Bool.
From Verif Require Import Base DVec Mesh Spec Rep MeshMore MeshSpec MeshProofs BuildSpec RefineSpec BuildStep DivideProofs MeshEx Alg Transform CurveSpec CurveProofs
  NetProofs Flatten FlattenSpec FlattenProofs TransEx.
Import ListNotations.
Set Implicit Arguments.
Unset Strict Implicit.
Local Arguments abs : simpl never.
Local Open Scope nat_scope.

Notation qmesh := (mesh (pnu Q) (curve Q) nat).
(** [flatten_curved_edges] with the tolerance [sqrt err2] *)
Definition q_flat (fuel D : nat) (err2 : Q) := qflatten fuel (within D err2).
Definition q_flatten (fuel D : nat) (err2 : Q) (c : cfg) (m : qmesh) := flatten_curved_edges 0%Q (q_flat fuel D err2) c m.

(** * the recursion ends *)
Lemma rec_mono fuel k close cv s e t0 t1 l out : qrec fuel close cv s e t0 t1 l = Ok out -> qrec (fuel + k) close cv s e t0 t1 l = Ok out.
Proof.
  revert t0 t1 l out. induction fuel as [|fuel IH]; intros t0 t1 l out H; [discriminate|].
  unfold qrec in *. cbn [recursive_flatten Nat.add] in *.
  destruct (close _ _); [exact H|].
  destruct (recursive_flatten _ _ _ _ fuel _ _ _ _ _ _ (halve t0 t1) t1 l) as [l'| |] eqn:E; try discriminate.
  apply IH in E. rewrite E. cbn [bind] in *. apply IH. exact H.
Qed.
Lemma flatten_mono fuel k close cv s e out : qflatten fuel close cv s e = Ok out -> qflatten (fuel + k) close cv s e = Ok out.
Proof.
  unfold qflatten, flatten_casteljau. intros H.
  destruct (recursive_flatten _ _ _ _ fuel _ _ _ _ _ _ _ _ []) as [l| |] eqn:E; try discriminate.
  apply (rec_mono k) in E. unfold qrec in E. rewrite E. exact H.
Qed.
Lemma live_ends (m : qmesh) e cv : wf m -> lv (abs m) e = true -> ep (abs m) e = Some cv -> exists a b, ends (abs m) e a b cv.
Proof.
  intros Wm L E. destruct (wf_abs Wm) as [Rm W].
  destruct (r_vertex_live Rm (og (abs m) e)) as (x & _ & _ & X); [apply (wf_og W); auto|].
  destruct (r_vertex_live Rm (target (abs m) e)) as (y & _ & _ & Y); [apply (wf_og W), (wf_tw W); auto|].
  exists (u_pos (v_pay x)), (u_pos (v_pay y)). split; auto. exists (v_pay x), (v_pay y). auto.
Qed.
Theorem flatten_defined D err2 (m : qmesh) : wf m -> (0 < err2)%Q ->
  exists fuel pts, (forall e, curved (abs m) e -> inner (q_flat fuel D err2) (abs m) e (pts e)) /\
    (forall e, ~ curved (abs m) e -> pts e = []).
Proof.
  intros Wm P. destruct (wf_abs Wm) as [Rm W].
  assert (DEC : forall e, curved (abs m) e \/ ~ curved (abs m) e).
  { intros e. destruct (lv (abs m) e) eqn:L; [|right; intros [Q _]; congruence].
    destruct (r_edge_live Rm _ L) as (x & _ & _ & _ & _ & _ & _ & E). destruct (linear_dec L E) as [[H _]|[H _]]; auto. }
  assert (H : forall l, (forall e, In e l -> lv (abs m) e = true) -> exists fuel pts,
    (forall e, In e l -> curved (abs m) e -> inner (q_flat fuel D err2) (abs m) e (pts e)) /\
    (forall e, ~ (In e l /\ curved (abs m) e) -> pts e = [])).
  { induction l as [|x l IH]; intros LL.
    - exists 0, (fun _ => []). split; [intros e []|auto].
    - destruct IH as (fuel & pts & A & B); [intros e I; apply LL; right; auto|].
      destruct (in_dec Nat.eq_dec x l) as [I|I].
      { exists fuel, pts. split; [intros e [<-|J]; auto|]. intros e N. apply B. cbn in N. tauto. }
      destruct (DEC x) as [C|C].
      + destruct C as (Lx & cv & E & NL). destruct (live_ends Wm Lx E) as (a & b & EN).
        destruct (flatten_terminates D err2 cv a b P) as (k & out & K).
        exists (fuel + k), (fun e => if e =? x then out else pts e). split.
        * intros e J Ce. destruct (Nat.eqb_spec e x) as [->|N].
          -- split; [exact Ce|]. exists a, b, cv. split; [exact EN|]. unfold q_flat. rewrite Nat.add_comm. apply flatten_mono; auto.
          -- destruct J as [->|J]; [congruence|]. destruct (A e J Ce) as (_ & a' & b' & cv' & E1 & E2).
             split; auto. exists a', b', cv'. split; auto. apply flatten_mono; auto.
        * intros e N. destruct (Nat.eqb_spec e x) as [->|NE].
          -- exfalso. apply N. split; [left; auto|]. split; eauto.
          -- apply B. cbn in N. tauto.
      + exists fuel, pts. split; [intros e [<-|J] Ce; [tauto|auto]|]. intros e N. apply B. cbn in N. tauto. }
  destruct (H (edge_ids m)) as (fuel & pts & A & B); [intros e; apply edge_ids_live; auto|].
  exists fuel, pts. split.
  - intros e C. apply A; auto. apply edge_ids_live; auto. apply C.
  - intros e N. apply B. tauto.
Qed.

(** * the error *)
Lemma norm2_ext D a b c d : (forall i, a i == c i)%Q -> (forall i, b i == d i)%Q -> (norm2 D a b == norm2 D c d)%Q.
Proof. intros H K. induction D; cbn; [reflexivity|]. rewrite IHD, H, K. reflexivity. Qed.
Lemma split_at {A} (x y : A) p q l : l = p ++ x :: y :: q -> firstn (length p) l = p /\ nth_error l (length p) = Some x /\ nth_error l (S (length p)) = Some y.
Proof.
  intros ->. split; [rewrite firstn_app, Nat.sub_diag, firstn_all; cbn; apply app_nil_r|].
  split; [rewrite nth_error_app2, Nat.sub_diag; auto|]. rewrite nth_error_app2 by lia. replace (S (length p) - length p) with 1 by lia. auto.
Qed.
Lemma split_nth {A} (l : list A) k x y : nth_error l k = Some x -> nth_error l (S k) = Some y -> exists p q, l = p ++ x :: y :: q.
Proof.
  revert k. induction l as [|a l IH]; intros k H K; [destruct k; discriminate|]. destruct k as [|k]; cbn in *.
  - injection H as ->. destruct l as [|b l]; [discriminate|]. injection K as ->. exists [], l. auto.
  - destruct (IH _ H K) as (p & q & ->). exists (a :: p), q. auto.
Qed.

Theorem flatten_close fuel D err2 (m m' : qmesh) pts L es vs : wf m -> (0 <= err2)%Q ->
  (forall e, curved (abs m) e -> inner (q_flat fuel D err2) (abs m) e (pts e)) ->
  (forall e, ~ curved (abs m) e -> pts e = []) -> (forall e, In e L <-> pts e <> []) ->
  divided_all (abs m) (abs m') (Linear Q) L es vs (fun e => map (u_from_pos 0%Q) (pts e)) ->
  forall e a b cv t, In e L -> ends (abs m) e a b cv -> (forall c1 c2, cv <> Cubic c1 c2) -> (0 <= t)%Q -> (t <= 1)%Q ->
    exists p x y q u v l, og (abs m) e :: vs e ++ [target (abs m) e] = p ++ x :: y :: q /\
      located (abs m') x u /\ located (abs m') y v /\ (0 <= l)%Q /\ (l <= 1)%Q /\
      (norm2 D (qpoint cv a b t) (qlerp u v l) <= err2)%Q.
Proof.
  intros Wm E0 IN NC IL D0 e a b cv t I EN NQ T0 T1. pose proof (wfW Wm) as W.
  assert (C : curved (abs m) e).
  { destruct (lv (abs m) e) eqn:Le.
    - destruct EN as [E _]. destruct (linear_dec Le E) as [[H _]|[H _]]; auto. exfalso. apply (proj1 (IL e) I), NC, H.
    - exfalso. apply (proj1 (IL e) I), NC. intros [Q _]. congruence. }
  destruct (IN e C) as (_ & a' & b' & cv' & EN' & FL).
  assert (cv' = cv /\ a' = a /\ b' = b) as (-> & -> & ->).
  { destruct EN as (A & p & q & P1 & P2 & -> & ->). destruct EN' as (A' & p' & q' & P1' & P2' & -> & ->).
    assert (p = p') by congruence. assert (q = q') by congruence. subst. split; [congruence|auto]. }
  destruct (flatten_error D err2 fuel cv a b (pts e) E0 NQ FL) as (ts & EP & _ & K).
  destruct (K t T0 T1) as (p & x & y & q & l & SP & L0 & L1 & ER).
  (* positions of the chain *)
  assert (CH : forall k s, nth_error (0%Q :: ts ++ [1%Q]) k = Some s ->
    exists z u, nth_error (og (abs m) e :: vs e ++ [target (abs m) e]) k = Some z /\ located (abs m') z u /\
      forall i, (u i == qpoint cv a b s i)%Q).
  { destruct C as [Le _]. destruct EN as (_ & pa & pb & Pa & Pb & -> & ->).
    pose proof (da_pos D0 I) as DP. cbn beta in DP.
    assert (LN : length (vs e) = length ts).
    { transitivity (length (map (vp (abs m')) (vs e))); [rewrite map_length; auto|]. rewrite DP, !map_length, EP, map_length. auto. }
    intros k s H. destruct k as [|k]; cbn [nth_error] in *.
    - injection H as <-. exists (og (abs m) e), (u_pos pa). split; auto. split.
      + exists pa. split; auto. rewrite (da_old_v D0); auto. apply (wf_og W); auto.
      + intros i. unfold qpoint, point_at. destruct cv; unfold lerp; ring.
    - destruct (Nat.lt_ge_cases k (length ts)) as [Hk|Hk].
      + rewrite nth_error_app1 in H by auto. rewrite nth_error_app1 by lia.
        destruct (nth_error (vs e) k) as [z|] eqn:Z; [|apply nth_error_None in Z; lia].
        exists z, (qpoint cv (u_pos pa) (u_pos pb) s). split; auto. split; [|reflexivity].
        pose proof (map_nth_error (vp (abs m')) _ _ Z) as Z'. rewrite DP, EP, !map_map in Z'.
        rewrite (map_nth_error (fun x => Some (u_from_pos 0%Q (qpoint cv (u_pos pa) (u_pos pb) x))) _ _ H) in Z'.
        injection Z' as Z'. eexists. split; [symmetry; exact Z'|reflexivity].
      + rewrite nth_error_app2 in H by auto. rewrite nth_error_app2 by lia. rewrite LN.
        destruct (k - length ts) as [|j]; cbn [nth_error] in *; [|destruct j; discriminate].
        injection H as <-. exists (target (abs m) e), (u_pos pb). split; auto. split.
        * exists pb. split; auto. rewrite (da_old_v D0); auto. apply (wf_og W), (wf_tw W); auto.
        * intros i. unfold qpoint, point_at. destruct cv; unfold lerp; ring. }
  destruct (split_at SP) as (_ & N1 & N2).
  destruct (CH _ _ N1) as (z1 & u & Z1 & Lu & Eu). destruct (CH _ _ N2) as (z2 & v & Z2 & Lv & Ev).
  destruct (split_nth Z1 Z2) as (p' & q' & SP').
  exists p', z1, z2, q', u, v, l. split; [exact SP'|]. do 4 (split; auto).
  eapply Qle_trans; [|exact ER]. apply Qle_lteq. right. apply norm2_ext; [reflexivity|]. intros i. unfold qlerp, lerp. rewrite Eu, Ev. reflexivity.
Qed.

(** * concrete meshes *)
(** the curve y = x (4 - x) / 2 from (0,0) to (4,0), on top of a triangle; [ex_both] stores it in both half-edges *)
Definition set_curve (e : nat) (cv : curve Q) (m : qmesh) : res qmesh :=
  upd_edge m e (fun x => mkE (e_next x) (e_twin x) (e_prev x) (e_origin x) (e_face x) cv).
Definition arch : curve Q := Quadratic (qv [2; 4; 0]%Q).
Definition ex_arch : qmesh := get_ok empty_mesh
  (let* (m, _) := insert_polygon (Linear Q) 7 c0 empty_mesh (map (q_at []) [[0; 0; 0]; [4; 0; 0]; [2; -3; 0]]%Q) in set_curve 0 arch m).
Definition ex_both : qmesh := get_ok empty_mesh (set_curve 1 arch ex_arch).
(** the same with one more edge at the origin of the curved half-edge *)
Definition ex_branch : qmesh := get_ok empty_mesh (let* (m, _, _, _) := add_vertex_via_vertex c0 ex_arch 0 (q_at [] [-3; 0; 0]%Q) (Linear Q) (Linear Q) in Ok m).
Definition arch_pts (e : nat) : list (nat -> Q) :=
  match e with O => get_ok [] (q_flat 5 2 1%Q arch (qv [0; 0; 0]%Q) (qv [4; 0; 0]%Q)) | _ => [] end.


Lemma arch_curved (m : qmesh) k : wf m -> edge_ids m = seq 0 k ->
  forallb (fun e => match ep (abs m) e with Some (Linear _) => true | _ => false end) (seq 1 (k - 1)) = true ->
  forall e, curved (abs m) e -> e = 0.
Proof.
  intros Wm EI B e (L & cv & E & N). apply edge_ids_live in L; auto. rewrite EI in L. apply in_seq in L.
  destruct e as [|e]; auto. rewrite forallb_forall in B. specialize (B (S e)). rewrite E in B.
  assert (Q : match cv with Linear _ => true | _ => false end = true) by (apply B, in_seq; lia).
  destruct cv; congruence.
Qed.
Lemma arch_wf : wf ex_arch.
Proof. apply wfb_ok; vm_compute; reflexivity. Qed.
Theorem flatten_ex : wf ex_arch /\
  (forall e, curved (abs ex_arch) e -> inner (q_flat 5 2 1%Q) (abs ex_arch) e (arch_pts e)) /\
  (forall e, ~ curved (abs ex_arch) e -> arch_pts e = []) /\
  (forall e, arch_pts e <> [] -> two_edges (abs ex_arch) e /\ ~ curved (abs ex_arch) (tw (abs ex_arch) e)) /\
  fits c0 ex_arch (2 * list_sum (map (fun e => length (arch_pts e)) (edge_ids ex_arch)) + 0) (list_sum (map (fun e => length (arch_pts e)) (edge_ids ex_arch)) + 0) 0 /\
  length (arch_pts 0) = 1 /\ (exists cv, ep (abs ex_arch) 0 = Some cv /\ forall c1 c2, cv <> Cubic c1 c2).
Proof.
  pose proof arch_wf as Wm. destruct (wf_abs Wm) as [R W].
  assert (CU : forall e, curved (abs ex_arch) e -> e = 0).
  { apply (arch_curved (k := 6)); auto; vm_compute; reflexivity. }
  assert (C0 : curved (abs ex_arch) 0) by (split; [vm_compute; reflexivity|]; exists arch; split; [vm_compute; reflexivity|discriminate]).
  split; [exact Wm|]. split; [|split; [|split; [|split; [|split]]]].
  - intros e C. rewrite (CU _ C). split; [exact C0|]. exists (qv [0; 0; 0]%Q), (qv [4; 0; 0]%Q), arch. split.
    + split; [vm_compute; reflexivity|]. exists (q_at [] [0; 0; 0]%Q), (q_at [] [4; 0; 0]%Q). split; [vm_compute; reflexivity|]. split; [vm_compute; reflexivity|]. split; reflexivity.
    + vm_compute; reflexivity.
  - intros [|e] N; [tauto|reflexivity].
  - intros [|e] N; [|exfalso; apply N; reflexivity]. split.
    + apply (two_edges_links R W); [vm_compute; reflexivity|]. split; [vm_compute; reflexivity|vm_compute; congruence].
    + intros C. apply CU in C. vm_compute in C. discriminate C.
  - repeat split; apply Nat.leb_le; vm_compute; reflexivity.
  - vm_compute; reflexivity.
  - exists arch. split; [vm_compute; reflexivity|]. discriminate.
Qed.

(** * what the documentation promises does not hold *)
Theorem still_curved : ~ (forall fuel D err2 c m m', wf m -> (0 < err2)%Q -> q_flatten fuel D err2 c m = Ok m' -> has_curved_edges m' = false).
Proof.
  intros H. specialize (H 5 2 4%Q c0 ex_arch ex_arch arch_wf ltac:(reflexivity)).
  assert (E : q_flatten 5 2 4%Q c0 ex_arch = Ok ex_arch) by (vm_compute; reflexivity).
  specialize (H E). vm_compute in H. discriminate H.
Qed.

Lemma edge_point_parts (m : qmesh) e t p : q_point m e t = Ok p -> exists x s d, m_edge m e = Ok x /\ edge_ends m e = Ok (s, d) /\
  p = qpoint (e_pay x) s d t.
Proof.
  unfold q_point, edge_point. destruct (m_edge m e) as [x| |]; try discriminate. cbn [bind].
  destruct (edge_ends m e) as [[s d]| |]; try discriminate. cbn [bind]. intros H. injection H as <-. exists x, s, d. auto.
Qed.
Theorem both_curved : wf ex_both /\ exists m', q_flatten 5 2 1%Q c0 ex_both = Ok m' /\
  exists v q, lvv (abs ex_both) v = false /\ located (abs m') v q /\
    forall e t p, q_point ex_both e t = Ok p -> ~ (p 0%nat == q 0%nat /\ p 1%nat == q 1%nat)%Q.
Proof.
  split; [apply wfb_ok; vm_compute; reflexivity|].
  set (m' := get_ok empty_mesh (q_flatten 5 2 1%Q c0 ex_both)).
  assert (E : q_flatten 5 2 1%Q c0 ex_both = Ok m').
  { unfold m'. destruct (q_flatten 5 2 1%Q c0 ex_both) eqn:E; [reflexivity|vm_compute in E; discriminate E..]. }
  exists m'. split; [exact E|].
  destruct (vp (abs m') 4) as [z|] eqn:Z; [|vm_compute in Z; discriminate Z].
  exists 4, (u_pos z). split; [vm_compute; reflexivity|]. split; [exists z; auto|].
  assert (Z0 : (u_pos z 0%nat == 5 # 2)%Q).
  { assert (oq (option_map (fun z => u_pos z 0) (vp (abs m') 4)) (Some (5 # 2)%Q) = true) as K by (vm_compute; reflexivity).
    rewrite Z in K. cbn [option_map oq] in K. apply Qeq_bool_eq, K. }
  assert (Z1 : (u_pos z 1%nat == 5 # 2)%Q).
  { assert (oq (option_map (fun z => u_pos z 1) (vp (abs m') 4)) (Some (5 # 2)%Q) = true) as K by (vm_compute; reflexivity).
    rewrite Z in K. cbn [option_map oq] in K. apply Qeq_bool_eq, K. }
  intros e t p H.
  destruct (edge_point_parts H) as (x & s & d & X & N & ->).
  assert (K : forall k cv a b, e = k -> (let* x := m_edge ex_both k in Ok (e_pay x)) = Ok cv -> edge_ends ex_both k = Ok (a, b) ->
    e_pay x = cv /\ s = a /\ d = b).
  { intros k cv a b -> P Q. rewrite X in P. cbn [bind] in P. injection P as <-. rewrite N in Q. injection Q as <- <-. auto. }
  assert (Y : e = 0 \/ e = 1 \/ e = 2 \/ e = 3 \/ e = 4 \/ e = 5).
  { destruct e as [|[|[|[|[|[|e]]]]]]; auto 10. exfalso. clear - X.
    assert (Q : forall i, nth_error (slots (edges ex_both)) (6 + i) = None) by (intros i; apply nth_error_None; vm_compute; lia).
    unfold m_edge, d_get in X. change (S (S (S (S (S (S e)))))) with (6 + e) in X. rewrite Q in X. discriminate X. }
  assert (LIN : forall u v i, (qpoint (Linear Q) (qv u) (qv v) t i == nth i u 0 + (nth i v 0 - nth i u 0) * t)%Q).
  { intros u v i. unfold qpoint, point_at, lerp, qv. ring. }
  assert (ARC : forall u v i, (qpoint arch (qv u) (qv v) t i == nth i u 0 * ((1 - t) * (1 - t)) + nth i [2; 4; 0] 0 * 2 * (1 - t) * t + nth i v 0 * (t * t))%Q).
  { intros u v i. unfold qpoint, point_at, arch, qv. ring. }
  intros [A B]. rewrite Z0 in A. rewrite Z1 in B. clear Z0 Z1 Z E.
  destruct Y as [Y|[Y|[Y|[Y|[Y|Y]]]]].
  - destruct (K 0 arch (qv [0; 0; 0]%Q) (qv [4; 0; 0]%Q) Y) as (P1 & P2 & P3); [vm_compute; reflexivity..|]. rewrite P1, P2, P3, ARC in A, B. cbn [nth] in A, B.
    assert (T : (t == 5 # 8)%Q) by (setoid_replace t with ((1 # 4) * (4 * t))%Q by ring; setoid_replace (4 * t)%Q with (5 # 2)%Q by (rewrite <- A; ring); reflexivity).
    rewrite T in B. vm_compute in B. discriminate B.
  - destruct (K 1 arch (qv [4; 0; 0]%Q) (qv [0; 0; 0]%Q) Y) as (P1 & P2 & P3); [vm_compute; reflexivity..|]. rewrite P1, P2, P3, ARC in A, B. cbn [nth] in A, B.
    assert (T : (t == 3 # 8)%Q) by (setoid_replace t with (1 - (1 # 4) * (4 - 4 * t))%Q by ring; setoid_replace (4 - 4 * t)%Q with (5 # 2)%Q by (rewrite <- A; ring); reflexivity).
    rewrite T in B. vm_compute in B. discriminate B.
  - destruct (K 2 (Linear Q) (qv [4; 0; 0]%Q) (qv [2; -3; 0]%Q) Y) as (P1 & P2 & P3); [vm_compute; reflexivity..|]. rewrite P1, P2, P3, LIN in A, B. cbn [nth] in A, B. lra.
  - destruct (K 3 (Linear Q) (qv [2; -3; 0]%Q) (qv [4; 0; 0]%Q) Y) as (P1 & P2 & P3); [vm_compute; reflexivity..|]. rewrite P1, P2, P3, LIN in A, B. cbn [nth] in A, B. lra.
  - destruct (K 4 (Linear Q) (qv [0; 0; 0]%Q) (qv [2; -3; 0]%Q) Y) as (P1 & P2 & P3); [vm_compute; reflexivity..|]. rewrite P1, P2, P3, LIN in A, B. cbn [nth] in A, B. lra.
  - destruct (K 5 (Linear Q) (qv [2; -3; 0]%Q) (qv [0; 0; 0]%Q) Y) as (P1 & P2 & P3); [vm_compute; reflexivity..|]. rewrite P1, P2, P3, LIN in A, B. cbn [nth] in A, B. lra.
Qed.

Theorem branch_breaks : wf ex_branch /\ exists m', q_flatten 5 2 1%Q c0 ex_branch = Ok m' /\ ~ wf m'.
Proof.
  split; [apply wfb_ok; vm_compute; reflexivity|].
  set (m' := get_ok empty_mesh (q_flatten 5 2 1%Q c0 ex_branch)).
  assert (E : q_flatten 5 2 1%Q c0 ex_branch = Ok m').
  { unfold m'. destruct (q_flatten 5 2 1%Q c0 ex_branch) eqn:E; [reflexivity|vm_compute in E; discriminate E..]. }
  exists m'. split; [exact E|]. intros Wm. pose proof (wf_pvnx (wfW Wm) 5) as K. vm_compute in K. specialize (K eq_refl). discriminate K.
Qed.
