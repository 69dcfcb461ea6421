(** Vertex export: [dense_vertices] and the flat-normal export. *)
From Coq Require Import List Arith Lia Bool.
From Verif Require Import Base DVec DVecFacts Mesh Tess Buffer ExportSpec.
Import ListNotations.
Set Implicit Arguments.
Unset Strict Implicit.

Section Dense.
  Context {VP EP FP : Type}.
  Lemma write_all (l : list (nat * vertex VP)) : forall out, NoDup (map fst l) -> (forall v x, In (v, x) l -> v < length out) ->
    exists out', foldM (fun out (v : nat * vertex VP) =>
        if fst v <? length out then Ok (upd out (fst v) (v_pay (snd v))) else Panic) l out = Ok out' /\
      length out' = length out /\ (forall v x, In (v, x) l -> nth_error out' v = Some (v_pay x)) /\
      (forall v, ~ In v (map fst l) -> nth_error out' v = nth_error out v).
  Proof.
    induction l as [|[v x] l IH]; intros out N B.
    - exists out. cbn. repeat split; auto. tauto.
    - cbn [foldM fst snd]. assert (L : v < length out) by (apply (B v x); left; auto).
      destruct (Nat.ltb_spec v (length out)); [|lia]. cbn [bind]. inversion N as [|? ? NI N']; subst.
      destruct (IH (upd out v (v_pay x))) as (out' & E & L' & A & F); auto.
      { intros w y I. rewrite upd_length. apply (B w y). right. auto. }
      exists out'. rewrite upd_length in L'. split; auto. split; auto. split.
      + intros w y [I|I]; auto. injection I as <- <-. rewrite F by auto. apply nth_error_upd_eq; auto.
      + intros w NW. cbn in NW. rewrite F by tauto. apply nth_error_upd_ne. tauto.
  Qed.
  Lemma dense_ok blank (m : mesh VP EP FP) ix : dv_ok (verts m) [] -> d_len (verts m) = d_cap (verts m) ->
    exists out, dense_vertices blank m ix = Ok (out, ix) /\ length out = d_cap (verts m) /\
      (forall v, v < length out -> d_has (verts m) v = true) /\
      forall v x, d_get (verts m) v = Ok x -> nth_error out v = Some (v_pay x).
  Proof.
    intros OK E. unfold dense_vertices. rewrite E, Nat.eqb_refl.
    destruct (@write_all (d_iter (verts m)) (repeat blank (d_cap (verts m)))) as (out & EO & L & A & _).
    - eapply iter_ids_nodup; eauto.
    - intros v x I. rewrite repeat_length. apply (iter_look OK) in I. unfold d_cap. eapply look_lt; eauto.
    - rewrite EO. exists out. split; auto. rewrite repeat_length in L. split; auto. split.
      + intros v LV. rewrite L in LV. unfold d_cap in LV. unfold d_has.
        destruct (nth_error (slots (verts m)) v) as [[p|]|] eqn:N; auto.
        * apply (ok_dead OK) in N. rewrite app_nil_r in N. unfold d_len, d_cap in E. destruct (free (verts m)); [destruct N|].
          cbn in E. lia.
        * apply nth_error_None in N. lia.
      + intros v x G. apply A. apply (iter_look OK). rewrite get_look in G. destruct (look _ v); cbn in G; congruence.
  Qed.
  (** the sparse branch compacts the vertices and leaves the indices alone *)
  Lemma sparse_ok blank (m : mesh VP EP FP) ix : d_len (verts m) <> d_cap (verts m) ->
    dense_vertices blank m ix = Ok (map (fun v => v_pay (snd v)) (d_iter (verts m)), ix).
  Proof.
    intros NE. unfold dense_vertices. destruct (Nat.eqb_spec (d_len (verts m)) (d_cap (verts m))); [tauto|].
    unfold map_indices, b_new. cbn [b_start b_idx]. rewrite skipn_all, firstn_all. cbn [map_from mapM bind]. rewrite app_nil_r. cbn [b_idx]. f_equal. f_equal.
    assert (G : forall l (st : hmap nat * list VP), snd (fold_left (fun (st : hmap nat * list VP) (v : nat * vertex VP) =>
          ((fst v, length (snd st)) :: fst st, snd st ++ [v_pay (snd v)])) l st) = snd st ++ map (fun v => v_pay (snd v)) l).
    { induction l as [|v l IH]; intros st; cbn; [rewrite app_nil_r; auto|]. rewrite IH. cbn. rewrite <- app_assoc. auto. }
    rewrite G. auto.
  Qed.
End Dense.

Section Flat.
  Variable VP : Type.
  Implicit Types f : list (nat * VP).
  Definition stepf (nrm : VP -> VP) (s : hmap nat * list VP) (v : nat * VP) : hmap nat * list VP :=
    ((fst v, length (snd s)) :: fst s, snd s ++ [nrm (snd v)]).
  Lemma fold_block nrm f : forall (h0 : hmap nat) vs0, exists h, fold_left (stepf nrm) f (h0, vs0) = (h, vs0 ++ map (fun v => nrm (snd v)) f) /\
    forall x, In x (map fst f) -> exists j p, hget h x = Some (length vs0 + j) /\ nth_error f j = Some (x, p).
  Proof.
    intros h0 vs0.
    assert (G : forall f pre (h0 : hmap nat), exists h,
      fold_left (stepf nrm) f (h0, vs0 ++ map (fun v => nrm (snd v)) pre) = (h, vs0 ++ map (fun v => nrm (snd v)) (pre ++ f)) /\
      forall x, (In x (map fst f) -> exists j p, hget h x = Some (length vs0 + j) /\ nth_error (pre ++ f) j = Some (x, p)) /\
                (~ In x (map fst f) -> hget h x = hget h0 x)).
    { clear f h0. induction f as [|[v p] f IH]; intros pre h0.
      - exists h0. rewrite app_nil_r. split; auto. cbn. tauto.
      - cbn [fold_left]. 
        replace (stepf nrm (h0, vs0 ++ map (fun v => nrm (snd v)) pre) (v, p))
          with ((v, length (vs0 ++ map (fun v => nrm (snd v)) pre)) :: h0, vs0 ++ map (fun v => nrm (snd v)) (pre ++ [(v, p)]))
          by (unfold stepf; cbn; rewrite map_app, app_assoc; auto).
        destruct (IH (pre ++ [(v, p)]) ((v, length (vs0 ++ map (fun v => nrm (snd v)) pre)) :: h0)) as (h & E & H).
        exists h. split.
        + etransitivity; [exact E|]. rewrite <- app_assoc. auto.
        + intros x. destruct (in_dec Nat.eq_dec x (map fst f)) as [I|NI].
          * split; [|cbn; tauto]. intros _. destruct (proj1 (H x) I) as (j & q & A & B). exists j, q. split; auto. rewrite <- app_assoc in B. auto.
          * pose proof (proj2 (H x) NI) as Q. cbn [hget] in Q. split.
            -- intros [<-|I]; [|tauto]. cbn [fst] in *. rewrite Nat.eqb_refl in Q. exists (length pre), p.
               rewrite app_length, map_length in Q. split; auto. rewrite nth_error_app2, Nat.sub_diag by lia. auto.
            -- intros NI'. cbn in NI'. destruct (Nat.eqb_spec x v); [subst; tauto|]. auto. }
    destruct (G f [] h0) as (h & E & H). cbn [map app] in E. rewrite app_nil_r in E. exists h. split; auto.
    intros x I. destruct (proj1 (H x) I) as (j & p & A & B). eauto.
  Qed.
  Lemma map_block h f off app : (forall x, In x (map fst f) -> exists j p, hget h x = Some (off + j) /\ nth_error f j = Some (x, p)) ->
    incl app (map fst f) -> exists blk, map_from h app = Ok blk /\ Forall2 (stands_for f off) app blk.
  Proof.
    intros H. induction app as [|x app IH]; intros I; [exists []; split; auto|].
    destruct (H x (I x (or_introl eq_refl))) as (j & p & A & B).
    destruct IH as (blk & E & F); [intros y Y; apply I; right; auto|].
    exists (off + j :: blk). split; [|constructor; auto; exists j, p; auto].
    unfold map_from in *. cbn [mapM]. rewrite A. cbn [unwrap bind]. rewrite E. reflexivity.
  Qed.
  Lemma flat_ok tf set_normal fs : (forall f, In f fs -> exists app, tf f = Ok app /\ incl app (map fst f)) ->
    exists ix, flat_normals tf set_normal fs = Ok (ix, flat_verts set_normal fs) /\ flat_indices tf fs 0 ix.
  Proof.
    intros H.
    assert (G : forall fs ix0 vs0, (forall f, In f fs -> exists app, tf f = Ok app /\ incl app (map fst f)) ->
      exists ix, foldM (fun st f => flat_face tf (set_normal f) st f) fs (ix0, vs0) = Ok (ix0 ++ ix, vs0 ++ flat_verts set_normal fs) /\
        flat_indices tf fs (length vs0) ix).
    { clear fs H. induction fs as [|f fs IH]; intros ix0 vs0 H.
      - exists []. cbn. rewrite !app_nil_r. auto.
      - destruct (H f (or_introl eq_refl)) as (app & E & I). cbn [foldM].
        unfold flat_face at 1. cbn [fst snd b_new b_idx b_start].
        destruct (fold_block (set_normal f) f [] vs0) as (h & EH & HH). change (fold_left _ f ([], vs0)) with (fold_left (stepf (set_normal f)) f (([] : hmap nat), vs0)). rewrite EH, E. cbn [bind fst snd].
        destruct (map_block HH I) as (blk & EB & FB).
        unfold map_indices. cbn [b_idx b_start]. rewrite skipn_app, skipn_all, Nat.sub_diag. cbn [skipn Datatypes.app]. rewrite EB. cbn [bind].
        rewrite firstn_app, firstn_all, Nat.sub_diag. cbn [firstn]. rewrite app_nil_r. cbn [b_idx].
        destruct (IH (ix0 ++ blk) (vs0 ++ map (fun v => set_normal f (snd v)) f)) as (ix & E2 & F2).
        { intros g I'. apply H. right. auto. }
        exists (blk ++ ix). split.
        + rewrite E2. rewrite <- !app_assoc. auto.
        + cbn [flat_indices]. exists app, blk, ix. rewrite app_length, map_length in F2. auto. }
    destruct (G fs [] [] H) as (ix & E & F). cbn [app length] in *. eauto.
  Qed.
  (** consequence: every exported index is in range and refers to the payload of its vertex with the normal of its face *)
  Lemma flat_range tf set_normal fs ix : flat_indices tf fs 0 ix ->
    forall y, In y ix -> exists f x p, In f fs /\ In (x, p) f /\ nth_error (flat_verts set_normal fs) y = Some (set_normal f p).
  Proof.
    assert (G : forall fs pre ix, flat_indices tf fs (length pre) ix -> forall y, In y ix ->
      exists f x p, In f fs /\ In (x, p) f /\ nth_error (pre ++ flat_verts set_normal fs) y = Some (set_normal f p)).
    { clear. induction fs as [|f fs IH]; intros pre ix H y I; cbn in H; [subst; destruct I|].
      destruct H as (app & blk & rest & E & -> & F & R). apply in_app_or in I as [I|I].
      - clear -F I. induction F as [|x z l l' (j & p & A & B) F IH]; [destruct I|]. destruct I as [<-|I]; auto.
        exists f, x, p. split; [left; auto|]. split; [eapply nth_error_In; eauto|].
        rewrite nth_error_app2 by lia. replace (z - length pre) with j by lia. cbn.
        rewrite nth_error_app1 by (rewrite map_length; apply nth_error_Some; congruence). rewrite nth_error_map, A. auto.
      - destruct (IH (pre ++ map (fun v => set_normal f (snd v)) f) rest) with (y := y) as (g & x & p & A & B & C); auto.
        { rewrite app_length, map_length. auto. }
        exists g, x, p. split; [right; auto|]. split; auto. cbn. rewrite <- app_assoc in C. auto. }
    intros H. apply (G fs [] ix H).
  Qed.
End Flat.
Lemma sparse_wrong : exists (m : mesh nat nat nat) out, dv_ok (verts m) [] /\
    dense_vertices 0 m [1; 2] = Ok (out, [1; 2]) /\
    (exists x, d_get (verts m) 1 = Ok x /\ nth_error out 1 <> Some (v_pay x)) /\ length out <= 2.
Proof.
  exists (mkM (@d_new (edge nat)) (mkD [None; Some (1, mkV None 7); Some (2, mkV None 8)] [0]) (@d_new (face nat))), [7; 8].
  split; [|split; [reflexivity|split; [|cbn; lia]]].
  - split; cbn.
    + repeat constructor; cbn; tauto.
    + intros [|[|[|[|i]]]]; cbn; split; intros; try discriminate; try tauto; intuition discriminate.
    + intros [|[|[|[|i]]]] k v H; cbn in H; try discriminate; injection H as <- _; auto.
  - exists (mkV None 7). split; [reflexivity|discriminate].
Qed.
