(** What the exchange of the y and z axes does. *)
From Coq Require Import List Arith ZArith QArith Lia Bool Ring Ring_theory Setoid Morphisms.
From Verif Require Import Base DVec DVecFacts Mesh Spec MeshSpec MeshMore MeshFacts TopoSpec BuildSpec BuildStep Rep MeshProofs IsoProofs MeshEx.
From Verif Require Import Tess Alg AlgSpec TriSpec AlgProofs AffineProofs Transform TransSpec TransProofs TransEx FlipYz.
Import ListNotations.
Set Implicit Arguments.
Unset Strict Implicit.
Local Arguments abs : simpl never.
Local Open Scope nat_scope.

Section Any.
  Context {R EP FP : Type}.
  Implicit Types m : mesh (pnu R) EP FP.
  (** the payload with y and z of the position exchanged *)
  Definition mirrored (p q : pnu R) : Prop :=
    u_pos q 0 = u_pos p 0 /\ u_pos q 1 = u_pos p 2 /\ u_pos q 2 = u_pos p 1 /\ u_nor q = u_nor p /\ u_uv q = u_uv p.
  Lemma flip_parts m : exists fv, (forall p, mirrored p (fv p)) /\
    flip_yz m = mkM (edges m) (d_map (fun x => mkV (v_edge x) (fv (v_pay x))) (verts m)) (faces m).
  Proof. exists (fun p => u_set_pos (xzy (u_pos p)) p). split; [repeat split|reflexivity]. Qed.
  Lemma flip_vertex m v : m_vertex (flip_yz m) v =
    match m_vertex m v with Ok x => Ok (mkV (v_edge x) (u_set_pos (xzy (u_pos (v_pay x))) (v_pay x))) | Panic => Panic | Diverge => Diverge end.
  Proof.
    unfold m_vertex. rewrite !get_look. unfold flip_yz. cbn [verts]. rewrite look_map. destruct (look (verts m) v); reflexivity.
  Qed.
  Lemma flip_links m : same_links (abs m) (abs (flip_yz m)).
  Proof.
    split; intros; try reflexivity; unfold abs, flip_yz; cbn [lvv ve verts]; rewrite ?has_map, ?look_map; auto.
    destruct (look (verts m) v); reflexivity.
  Qed.
  Lemma flip_wf m : wf m -> wf (flip_yz m).
  Proof.
    intros (A & B & C & W). split; [exact A|]. split; [apply ok_map; exact B|]. split; [exact C|].
    eapply links_WF; [apply flip_links|exact W].
  Qed.
  Lemma flip_pays m :
    (forall v p, vp (abs m) v = Some p -> exists q, vp (abs (flip_yz m)) v = Some q /\ mirrored p q) /\
    (forall e, ep (abs (flip_yz m)) e = ep (abs m) e) /\ (forall f, fp (abs (flip_yz m)) f = fp (abs m) f).
  Proof.
    split; [|split; reflexivity]. intros v p. unfold abs, flip_yz. cbn [vp verts]. rewrite look_map.
    destruct (look (verts m) v) as [x|]; cbn; [|discriminate]. intros E. injection E as <-.
    eexists. split; [reflexivity|]. repeat split.
  Qed.
  Theorem flip_ok m : (wf m -> wf (flip_yz m)) /\ same_links (abs m) (abs (flip_yz m)) /\
    (forall v p, vp (abs m) v = Some p -> exists q, vp (abs (flip_yz m)) v = Some q /\ mirrored p q) /\
    (forall e, ep (abs (flip_yz m)) e = ep (abs m) e) /\ (forall f, fp (abs (flip_yz m)) f = fp (abs m) f).
  Proof. exact (conj (@flip_wf m) (conj (flip_links m) (flip_pays m))). Qed.
End Any.

Section Ring.
  Variables (R : Type) (zero one : R) (add mul sub : R -> R -> R) (opp : R -> R) (req : R -> R -> Prop).
  Hypothesis Eq : Equivalence req.
  Hypothesis Ext : ring_eq_ext add mul opp req.
  Hypothesis RT : ring_theory zero one add mul sub opp req.
  Add Ring Rf : RT (setoid Eq Ext).
  Instance addp : Proper (req ==> req ==> req) add := Radd_ext Ext.
  Instance mulp : Proper (req ==> req ==> req) mul := Rmul_ext Ext.
  Instance oppp : Proper (req ==> req) opp := Ropp_ext Ext.
  Infix "+" := add. Infix "*" := mul. Infix "-" := sub. Notation "- x" := (opp x).
  Infix "==" := req (at level 70).
  Notation vec := (vec R).
  Context {FP : Type}.
  Implicit Types (m : mesh (pnu R) (curve R) FP).

  Lemma flip_points m vs l : mapM (fun v => let* x := m_vertex m v in Ok (u_pos (v_pay x))) vs = Ok l ->
    mapM (fun v => let* x := m_vertex (flip_yz m) v in Ok (u_pos (v_pay x))) vs = Ok (map xzy l).
  Proof.
    revert l. induction vs as [|v vs IH]; intros l H; cbn [mapM] in *.
    - injection H as <-. reflexivity.
    - rewrite flip_vertex. destruct (m_vertex m v) as [x| |] eqn:E; try discriminate. cbn [bind] in *.
      destruct (mapM _ vs) as [l'| |] eqn:F; try discriminate. cbn [bind] in H. injection H as <-.
      rewrite (IH _ eq_refl). reflexivity.
  Qed.
  Definition yz (c : nat) : nat := match c with 1 => 2 | 2 => 1 | _ => c end.
  Lemma cross_flip c a b : c < 3 -> cross3 mul sub c (xzy a) (xzy b) == - cross3 mul sub (yz c) a b.
  Proof. intros H. destruct c as [|[|[|c]]]; [| | |exfalso; lia]; cbn; ring. Qed.
  Lemma newell_flip mhalf l c : c < 3 -> newell zero add mul sub mhalf (map xzy l) c == - newell zero add mul sub mhalf l (yz c).
  Proof.
    intros H. rewrite !(newell_cross Eq Ext RT), poly_edges_map, (esum_map zero add).
    assert (E : forall es, esum zero add (fun a b => cross3 mul sub c (xzy a) (xzy b)) es == - esum zero add (cross3 mul sub (yz c)) es).
    { induction es as [|[a b] es IH]; cbn [TriSpec.esum]; [ring|]. rewrite IH, (cross_flip a b H). ring. }
    rewrite E. ring.
  Qed.
  Theorem flip_normal mhalf m f : wf m -> lvf (abs m) f = true ->
    exists n n', face_normal zero add mul sub mhalf m f = Ok n /\ face_normal zero add mul sub mhalf (flip_yz m) f = Ok n' /\
      n' 0 == - n 0 /\ n' 1 == - n 2 /\ n' 2 == - n 1.
  Proof.
    intros Wm L. destruct (face_points_ok Wm L) as (l & H).
    assert (H' : face_points (flip_yz m) f = Ok (map xzy l)).
    { pose proof (flip_wf Wm) as Wm'. pose proof (flip_links m) as SL.
      assert (L' : lvf (abs (flip_yz m)) f = true) by (rewrite (sl_lvf SL); exact L).
      destruct (boundary_exists Wm L) as (vs & B). unfold face_points in *.
      rewrite (boundary_face_vertices Wm L B) in H. cbn [bind] in H.
      rewrite (boundary_face_vertices Wm' L' (links_boundary SL B)). cbn [bind]. apply (flip_points H). }
    unfold face_normal. rewrite H, H'. cbn [bind]. eexists. eexists. split; [reflexivity|]. split; [reflexivity|].
    repeat split; apply newell_flip; lia.
  Qed.
  Theorem flip_twice m : same_mesh req 3 (abs (flip_yz (flip_yz m))) (abs m).
  Proof.
    destruct (flip_links m) as [A B C D E F G H I J]. destruct (flip_links (flip_yz m)) as [A' B' C' D' E' F' G' H' I' J'].
    split; [split; intros; congruence|]. split; [|split].
    - intros v. unfold abs, flip_yz. cbn [vp verts]. rewrite !look_map. destruct (look (verts m) v) as [x|]; cbn; auto.
      split; [|split]; intros i K; try reflexivity. destruct i as [|[|[|i]]]; try reflexivity.
    - intros e. change (ep (abs (flip_yz (flip_yz m))) e) with (ep (abs m) e). destruct (ep (abs m) e) as [[|q|q r]|]; cbn; auto.
      + intros i _. reflexivity.
      + split; intros i _; reflexivity.
    - reflexivity.
  Qed.
End Ring.

Lemma tri_flip : ~ agree (flip_yz ex_tri) 0.
Proof.
  intros (n & vs & N & F & A). set (m := flip_yz ex_tri) in *.
  assert (F' : face_vertices m 0 = Ok [0; 2; 1]) by (vm_compute; reflexivity). rewrite F' in F. injection F as <-.
  destruct (m_vertex m 0) as [x| |] eqn:X; [|vm_compute in X; discriminate..].
  specialize (A 0 x (or_introl eq_refl) X 2 ltac:(lia)).
  assert (B : oq (nor m 0 2) (nrm m 0 2) = false) by (vm_compute; reflexivity).
  unfold oq, nor, nrm in B. rewrite X, N in B. apply Qeq_bool_iff in A. congruence.
Qed.
Theorem flip_wrong : wf ex_tri /\ agree ex_tri 0 /\ ~ agree (flip_yz ex_tri) 0.
Proof. exact (conj tri_wf (conj tri_agree tri_flip)). Qed.
Lemma flip_ex : is_ring 0%Q 1%Q Qplus Qmult Qminus Qopp Qeq /\ wf ex_tri /\ lvf (abs ex_tri) 0 = true /\
  oq (nrm ex_tri 0 2) (Some (1 # 2)%Q) = true /\ oq (nrm (flip_yz ex_tri) 0 1) (Some (-1 # 2)%Q) = true.
Proof.
  split; [exact (proj1 trans_ex)|]. split; [exact tri_wf|]. split; [vm_compute; reflexivity|]. split; vm_compute; reflexivity.
Qed.
