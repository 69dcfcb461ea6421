(** The export to a Bevy mesh. *)
From Coq Require Import List Arith Lia Bool NArith Permutation.
From Verif Require Import Base DVec Mesh MeshMore Spec MeshSpec DVecFacts Rep MeshProofs MeshFacts TriSpec TopoSpec TriMeshSpec BufferSpec Tess Buffer ExportSpec ExportProofs IsoProofs IsoComplete TriMeshProofs NetProofs Bevy BevySpec.
Import ListNotations.
Set Implicit Arguments.
Unset Strict Implicit.
Local Arguments abs : simpl never.

Lemma tri_corner (p : list nat) T : triangulates p T -> forall v, In v (flatten T) -> In v p.
Proof.
  intros (a & l & b & -> & H). induction H as [a b|a l1 k l2 b T1 T2 H1 I1 H2 I2|a l b T T' Pm H IH|a l b x y z T H IH]; intros v I.
  - destruct I.
  - unfold flatten in *. cbn [flat_map] in I. rewrite flat_map_app in I. cbn [app] in I. cbn. rewrite !in_app_iff. cbn.
    destruct I as [<-|[<-|[<-|I]]]; auto. apply in_app_or in I as [I|I]; [apply I1 in I|apply I2 in I]; cbn in I; rewrite in_app_iff in I; cbn in I; tauto.
  - apply IH. unfold flatten in *. apply in_flat_map in I as (t & I & J). apply in_flat_map. exists t. split; auto. eapply Permutation_in; [symmetry; exact Pm|auto].
  - apply IH. unfold flatten in *. cbn in *. tauto.
Qed.

Section BevyProofs.
  Context {V3 V2 EP FP : Type}.
  Notation pay := (payload V3 V2).
  Variable m : mesh pay EP FP.
  Hypothesis Wm : wf m.
  Notation g := (abs m).

  Lemma removed (b : bmesh V3) : b_attr (bevy_remove_attributes b) = [].
  Proof.
    unfold bevy_remove_attributes. cbn [b_attr].
    assert (G : forall (ks : list attribute) (l : list (attribute * list V3)) x, In x (fold_left (fun l a => remove_attribute a l) ks l) -> In x l /\ ~ In (fst x) ks).
    { induction ks as [|k ks IH]; intros l x I; cbn in I; [auto|]. apply IH in I as [I N]. unfold remove_attribute in I. apply filter_In in I as [I E].
      split; auto. intros [J|J]; [|auto]. rewrite J in E. destruct (fst x); cbn in E; try discriminate. rewrite Nat.eqb_refl in E. discriminate. }
    destruct (fold_left _ _ _) as [|x l] eqn:E; auto. exfalso.
    destruct (G (map fst (b_attr b)) (b_attr b) x) as [I N]; [rewrite E; left; auto|]. apply N, in_map, I.
  Qed.

  Variable w : N.
  Notation cap := (N.pow 2 (8 * w)).
  Lemma indices_ok ix : (w = 1 \/ w = 2 \/ w = 4)%N -> Forall (fun x => N.lt (N.of_nat x) cap) ix ->
    exists i, bevy_indices w ix = Ok i /\ buffer_ok i /\ index_buffer i = map N.of_nat ix.
  Proof.
    intros HW F. unfold bevy_indices.
    assert (K : forall c : N, N.le cap c -> Forall (fun x => N.lt x c) (map (fun x => N.modulo (N.of_nat x) c) ix) /\ map (fun x => N.modulo (N.of_nat x) c) ix = map N.of_nat ix).
    { intros c LE. assert (E : map (fun x => N.modulo (N.of_nat x) c) ix = map N.of_nat ix).
      { apply map_ext_in. intros x I. rewrite Forall_forall in F. apply N.mod_small. specialize (F _ I). cbv beta in F. lia. }
      rewrite E. split; auto. apply Forall_forall. intros y I. apply in_map_iff in I as (x & <- & I). rewrite Forall_forall in F. specialize (F _ I). cbv beta in F. lia. }
    destruct HW as [->|[->| ->]]; cbn [N.eqb Pos.eqb orb].
    - destruct (K 65536%N) as [A B]; [vm_compute; discriminate|]. exists (U16 (map (fun x => N.modulo (N.of_nat x) 65536) ix)). auto.
    - destruct (K 65536%N) as [A B]; [vm_compute; discriminate|]. exists (U16 (map (fun x => N.modulo (N.of_nat x) 65536) ix)). auto.
    - destruct (K 4294967296%N) as [A B]; [vm_compute; discriminate|]. exists (U32 (map (fun x => N.modulo (N.of_nat x) 4294967296) ix)). auto.
  Qed.

  Variable tris : nat -> res (list tri3).
  Variable normal : nat -> res V3.
  Variable r : nat -> bool.
  Hypothesis SD : face_sound g r tris.

  Lemma in_face f l t : lvf g f = true -> boundary_vertices g f l -> tris f = Ok t -> incl (flatten t) l.
  Proof.
    intros L B E v I. apply (tri_corner (SD L B E)) in I. destruct (r (length l)); auto. apply in_rev. auto.
  Qed.

  (** ** Without flat normals *)
  Lemma collected : forall fs Ts out, Forall2 (fun f t => tris f = Ok t) fs Ts ->
    foldM (fun out f => let* t := tris f in Ok (out ++ t)) fs out = Ok (out ++ concat Ts).
  Proof.
    intros fs Ts out F. revert out. induction F as [|f t fs Ts E F IH]; intros out; cbn; [rewrite app_nil_r; auto|].
    rewrite E. cbn [bind]. rewrite IH, app_assoc. auto.
  Qed.
  Lemma all_tris : (forall f, lvf g f = true -> exists t, tris f = Ok t) -> exists Ts, Forall2 (fun f t => tris f = Ok t) (face_ids m) Ts.
  Proof.
    intros H. assert (LV : Forall (fun f => lvf g f = true) (face_ids m)) by (apply Forall_forall; intros f; apply face_ids_live; auto).
    induction LV as [|f fs L LV [Ts IH]]; [exists []; auto|]. destruct (H _ L) as (t & E). exists (t :: Ts). auto.
  Qed.
  Lemma by_faces Ts : Forall2 (fun f t => tris f = Ok t) (face_ids m) Ts -> face_by_face g r (face_ids m) (concat Ts) /\ Forall (fun v => lvv g v = true) (flatten (concat Ts)).
  Proof.
    intros F. assert (LV : Forall (fun f => lvf g f = true) (face_ids m)) by (apply Forall_forall; intros f; apply face_ids_live; auto). split.
    - exists Ts. split; auto. revert LV. induction F as [|f t fs Ts E F IH]; intros LV; constructor; inversion LV as [|? ? L LV']; subst; auto.
      destruct (boundary_exists Wm L) as (l & B). exists l. split; auto. exact (SD L B E).
    - apply Forall_forall. intros v I. revert LV. induction F as [|f t fs Ts E F IH]; [destruct I|]. intros LV. inversion LV as [|? ? L LV']; subst. cbn [concat] in I. unfold flatten in I. rewrite flat_map_app in I.
      apply in_app_or in I as [I|I]; [|auto]. destruct (boundary_exists Wm L) as (l & B). apply (in_face L B E) in I.
      pose proof (boundary_live Wm B) as X. rewrite Forall_forall in X. auto.
  Qed.

  Lemma plain_export blank b : b_list b = true -> b_main b = true -> (w = 1 \/ w = 2 \/ w = 4)%N ->
    d_len (verts m) = d_cap (verts m) -> N.le (N.of_nat (d_cap (verts m))) cap ->
    (forall f, lvf g f = true -> exists t, tris f = Ok t) ->
    exists T i ps ns, bevy_set_ex w tris normal blank false m b = Ok (mkBM true true (Some i) [(Position, ps); (Normal, ns)]) /\
      face_by_face g r (face_ids m) T /\ buffer_ok i /\ index_buffer i = map N.of_nat (flatten T) /\
      length ps = num_vertices m /\ length ns = num_vertices m /\
      (forall v p, vp g v = Some p -> entry g ps ns v (p_normal p) v) /\ Forall (fun v => exists p, vp g v = Some p) (flatten T).
  Proof.
    intros HL HM HW DN FT AT. destruct (all_tris AT) as (Ts & F). destruct (by_faces F) as [BF LV].
    destruct Wm as (_ & V & _). destruct (dense_ok blank (flatten (concat Ts)) V DN) as (out & DO & LO & PO).
    destruct (@indices_ok (flatten (concat Ts)) HW) as (i & BI & BO & IB).
    { eapply Forall_impl; [|exact LV]. intros v L. destruct (vp_get L) as (x & G & _). apply PO in G.
      assert (v < length out) by (apply nth_error_Some; congruence). lia. }
    exists (concat Ts), i, (map (@p_pos _ _) out), (map (@p_normal _ _) out).
    assert (VE : forall v p, vp g v = Some p -> nth_error out v = Some p).
    { intros v p E. assert (L : lvv g v = true). { revert E. unfold abs. cbn [vp lvv]. unfold d_has, look. destruct (nth_error _ v) as [[x|]|]; cbn; congruence. }
      destruct (vp_get L) as (x & G & E'). apply PO in G. congruence. }
    split; [|split; [exact BF|split; [exact BO|split; [exact IB|split; [rewrite map_length; unfold num_vertices; lia|split; [rewrite map_length; unfold num_vertices; lia|split]]]]]].
    - unfold bevy_set_ex. rewrite HL, HM. cbn [assert]. unfold triangulate_mesh. rewrite (collected [] F). cbn [bind app].
      change (corners (concat Ts)) with (flatten (concat Ts)). rewrite DO. cbn [bind]. rewrite BI. cbn [bind]. rewrite removed.
      unfold bevy_remove_attributes. cbn [b_list b_main]. rewrite HL, HM. reflexivity.
    - intros v p E. exists p. split; auto. apply VE in E. rewrite !nth_error_map, E. auto.
    - eapply Forall_impl; [|exact LV]. intros v L. destruct (vp_get L) as (x & _ & E). eauto.
  Qed.

  (** ** With flat normals *)
  Lemma block n ids : Forall (fun v => lvv g v = true) ids -> forall h vs0,
    let run := foldM (flat_corner w m n) ids (h, vs0) in
    (N.le (N.of_nat (length vs0 + length ids)) cap ->
      exists us, map fst us = ids /\ Forall (fun u => vp g (fst u) = Some (snd u)) us /\ run = Ok (fold_left (stepf (set_normal n)) us (h, vs0))) /\
    (N.lt cap (N.of_nat (length vs0 + length ids)) -> N.le (N.of_nat (length vs0)) cap -> run = Panic).
  Proof.
    induction 1 as [|v ids L F IH]; intros h vs0; cbn [foldM].
    - split; [|cbn [length]; lia]. intros _. exists []. auto.
    - destruct (vp_get L) as (x & G & E). unfold flat_corner at 1 3. unfold m_vertex. rewrite G. cbn [bind fst snd]. unfold fits.
      destruct (N.ltb_spec (N.of_nat (length vs0)) cap) as [LT|GE]; cbn [assert bind length].
      + destruct (IH ((v, length vs0) :: h) (vs0 ++ [set_normal n (v_pay x)])) as [A B]. rewrite app_length in A, B. cbn [length] in A, B. split.
        * intros LE. destruct A as (us & EM & FU & RU); [lia|]. exists ((v, v_pay x) :: us). split; [cbn; congruence|]. split; [constructor; auto|]. exact RU.
        * intros GT _. apply B; lia.
      + split; [lia|]. auto.
  Qed.

  Definition corner_at (off : nat) (vs : list pay) (c : nat * nat) (k : nat) : Prop :=
    exists n p, normal (fst c) = Ok n /\ vp g (snd c) = Some p /\ off <= k /\ nth_error vs (k - off) = Some (set_normal n p).

  Lemma faces_flat : forall fs ls, Forall2 (boundary_vertices g) fs ls ->
    (forall f, In f fs -> lvf g f = true /\ (exists n, normal f = Ok n) /\ exists t, tris f = Ok t) -> forall ix0 vs0,
    (N.le (N.of_nat (length vs0 + length (concat ls))) cap ->
      exists ix vs Ts, foldM (flat_mesh_face w tris normal m) fs (ix0, vs0) = Ok (ix0 ++ ix, vs0 ++ vs) /\ Forall2 (fun f t => tris f = Ok t) fs Ts /\
        length vs = length (concat ls) /\ Forall2 (corner_at (length vs0) vs) (corners_of fs Ts) ix) /\
    (N.lt cap (N.of_nat (length vs0 + length (concat ls))) -> N.le (N.of_nat (length vs0)) cap -> foldM (flat_mesh_face w tris normal m) fs (ix0, vs0) = Panic).
  Proof.
    induction 1 as [|f l fs ls B F IH]; intros H ix0 vs0; cbn [foldM concat].
    - split; [|cbn [length]; lia]. intros _. exists [], [], []. rewrite !app_nil_r. cbn. auto.
    - destruct (H f (or_introl eq_refl)) as (L & (n & EN) & (t & ET)). unfold flat_mesh_face at 1 3. rewrite EN. cbn [bind].
      rewrite (boundary_face_vertices Wm L B). cbn [bind fst snd b_new b_idx b_start].
      pose proof (block n (boundary_live Wm B) [] vs0) as K. cbv zeta in K. destruct K as [KA KB]. rewrite app_length.
      destruct (N.le_gt_cases (N.of_nat (length vs0 + length l)) cap) as [LE|GT].
      + destruct (KA LE) as (us & EM & FU & ->). destruct (fold_block (set_normal n) us [] vs0) as (h & EH & HH). rewrite EH. cbn [bind]. rewrite ET. cbn [bind fst snd].
        change (corners t) with (flatten t).
        assert (I : incl (flatten t) (map fst us)) by (rewrite EM; exact (in_face L B ET)). destruct (map_block HH I) as (blk & EB & FB).
        unfold map_indices. cbn [b_idx b_start]. rewrite skipn_app, skipn_all, Nat.sub_diag. cbn [skipn app]. rewrite EB. cbn [bind].
        rewrite firstn_app, firstn_all, Nat.sub_diag. cbn [firstn]. rewrite app_nil_r. cbn [b_idx].
        destruct (IH (fun f' I' => H f' (or_intror I')) (ix0 ++ blk) (vs0 ++ map (fun v => set_normal n (snd v)) us)) as [A C].
        assert (LL : length us = length l) by (rewrite <- EM, map_length; auto).
        rewrite app_length, map_length, LL in A, C. split.
        * intros LC. destruct A as (ix & vs & Ts & E & FT & LV & FC); [lia|]. exists (blk ++ ix), (map (fun v => set_normal n (snd v)) us ++ vs), (t :: Ts).
          split; [rewrite E, <- !app_assoc; auto|]. split; [auto|]. split; [rewrite app_length, map_length; lia|].
          unfold corners_of. cbn [combine flat_map fst snd]. apply Forall2_app.
          -- clear - FB FU EN. induction FB as [|x y xs ys (j & p & J & ->) FB IH]; cbn [map]; constructor; auto.
             exists n, p. cbn [fst snd]. split; auto. rewrite Forall_forall in FU. pose proof (FU _ (nth_error_In _ _ J)) as X. cbn in X. split; auto. split; [lia|].
             replace (length vs0 + j - length vs0) with j by lia. rewrite nth_error_app1 by (rewrite map_length; apply nth_error_Some; congruence). rewrite nth_error_map, J. reflexivity.
          -- fold (corners_of fs Ts). clear - FC LL. induction FC as [|x y xs ys (n' & p & A & C & D & E) FC IH]; constructor; auto.
             exists n', p. split; auto. split; auto. split; [lia|]. rewrite nth_error_app2; rewrite map_length, LL; [|lia]. replace (y - length vs0 - length l) with (y - (length vs0 + length l)) by lia. exact E.
        * intros GT _. apply C; lia.
      + split; [lia|]. intros _ LE. rewrite (KB GT LE). reflexivity.
  Qed.

  Lemma flat_hyp : (forall f, lvf g f = true -> (exists n, normal f = Ok n) /\ exists t, tris f = Ok t) ->
    forall f, In f (face_ids m) -> lvf g f = true /\ (exists n, normal f = Ok n) /\ exists t, tris f = Ok t.
  Proof. intros H f I. apply face_ids_live in I; auto. Qed.

  Lemma flat_export blank b k : b_list b = true -> b_main b = true -> (w = 1 \/ w = 2 \/ w = 4)%N ->
    (forall f, lvf g f = true -> (exists n, normal f = Ok n) /\ exists t, tris f = Ok t) ->
    corner_count g (face_ids m) k ->
    (N.le (N.of_nat k) cap ->
      exists Ts i ps ns, bevy_set_ex w tris normal blank true m b = Ok (mkBM true true (Some i) [(Position, ps); (Normal, ns)]) /\
        face_by_face g r (face_ids m) (concat Ts) /\ Forall2 (fun f t => tris f = Ok t) (face_ids m) Ts /\ buffer_ok i /\ length ps = k /\ length ns = k /\
        Forall2 (fun c x => exists n, normal (fst c) = Ok n /\ entry g ps ns (snd c) n (N.to_nat x)) (corners_of (face_ids m) Ts) (index_buffer i)) /\
    (N.lt cap (N.of_nat k) -> bevy_set_ex w tris normal blank true m b = Panic).
  Proof.
    intros HL HM HW H (ls & FL & ->). destruct (faces_flat FL (flat_hyp H) [] []) as [A B]. cbn [length Nat.add app] in A, B. split.
    - intros LE. destruct (A LE) as (ix & vs & Ts & E & FT & LV & FC). destruct (by_faces FT) as [BF _].
      destruct (@indices_ok ix HW) as (i & BI & BO & IB).
      { clear - FC LE LV. induction FC as [|c x cs xs (n & p & _ & _ & _ & N) FC IH]; constructor; auto. rewrite Nat.sub_0_r in N.
        assert (x < length vs) by (apply nth_error_Some; congruence). lia. }
      exists Ts, i, (map (@p_pos _ _) vs), (map (@p_normal _ _) vs). split.
      { unfold bevy_set_ex. rewrite HL, HM. cbn [assert]. unfold flat_mesh. rewrite E. cbn [bind]. rewrite BI. cbn [bind]. rewrite removed.
        unfold bevy_remove_attributes. cbn [b_list b_main]. rewrite HL, HM. reflexivity. }
      split; [exact BF|]. split; [exact FT|]. split; [exact BO|]. rewrite !map_length. split; [exact LV|]. split; [exact LV|]. rewrite IB.
      clear - FC. induction FC as [|c x cs xs (n & p & A & C & _ & N) FC IH]; cbn [map]; constructor; auto.
      exists n. split; auto. exists p. rewrite Nat2N.id, !nth_error_map. rewrite Nat.sub_0_r in N. rewrite N. auto.
    - intros GT. unfold bevy_set_ex. rewrite HL, HM. cbn [assert]. unfold flat_mesh. rewrite (B GT); [reflexivity|]. cbn. lia.
  Qed.
  Lemma counted : exists k, corner_count g (face_ids m) k.
  Proof.
    assert (LV : Forall (fun f => lvf g f = true) (face_ids m)) by (apply Forall_forall; intros f; apply face_ids_live; auto).
    assert (X : exists ls, Forall2 (boundary_vertices g) (face_ids m) ls).
    { induction LV as [|f fs L LV [ls IH]]; [exists []; auto|]. destruct (boundary_exists Wm L) as (l & B). exists (l :: ls). auto. }
    destruct X as (ls & F). exists (length (concat ls)), ls. auto.
  Qed.
End BevyProofs.

(** Other targets are refused, and so are meshes with 64-bit indices. *)
Lemma refused {V3 V2 EP FP} w tris normal blank flat (m : mesh (payload V3 V2) EP FP) b : b_list b = false \/ b_main b = false -> bevy_set_ex w tris normal blank flat m b = Panic.
Proof. intros H. unfold bevy_set_ex. destruct (b_list b); [|reflexivity]. destruct (b_main b); [destruct H; discriminate|reflexivity]. Qed.
Lemma wide {V3 V2 EP FP} tris normal blank flat (m : mesh (payload V3 V2) EP FP) b b' : bevy_set_ex 8 tris normal blank flat m b <> Ok b'.
Proof.
  unfold bevy_set_ex. destruct (b_list b); [|discriminate]. destruct (b_main b); [|discriminate]. cbn [assert].
  destruct (if flat then _ else _) as [[is vs]| |]; cbn; discriminate.
Qed.
