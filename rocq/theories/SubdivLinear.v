(** Subdivision with [LinearVertexInterpolator]: the new vertices are the middles of the edges. *)
From Coq Require Import List Arith QArith Lia Bool.
From Verif Require Import Base DVec DVecFacts Mesh Spec MeshSpec MeshMore MeshProofs Alg Transform Interpolate InterpolateFacts
  Subdivision SubdivSpec SubdivArc SubdivFacts MeshEx Solid SubdivEx TransEx.
Import ListNotations.
Set Implicit Arguments.
Unset Strict Implicit.
Local Open Scope nat_scope.

(** src/mesh/vertex/interpolator.rs:24-32 with rational positions *)
Definition q_linear {EP FP : Type} : mesh (pnu Q) EP FP -> list (nat * nat) -> res (pnu Q) :=
  linear_call (@u_pos Q) (u_from_pos 0%Q) (fun n => inject_Z (Z.of_nat n))
    (fun a b i => (a i + b i)%Q) (fun a s i => (a i * s)%Q) (fun a s i => (a i / s)%Q).

Section Linear.
  Context {EP FP : Type}.
  Notation graph := (graph (pnu Q) EP FP).
  (** [x] is in the middle of [p] and [q] *)
  Definition middle_of (p q x : pnu Q) : Prop := forall i, (2 * u_pos x i == u_pos p i + u_pos q i)%Q.
  Definition q_phi (ps : list (nat * pnu Q)) : pnu Q :=
    match ps with
    | [(i, p); (j, q); (k, r)] => u_from_pos 0%Q (fun n =>
        ((u_pos p n * inject_Z (Z.of_nat i) + u_pos q n * inject_Z (Z.of_nat j) + u_pos r n * inject_Z (Z.of_nat k)) /
         inject_Z (Z.of_nat (i + j + k)))%Q)
    | _ => u_from_pos 0%Q (fun _ => 0%Q)
    end.
  Lemma q_reads : reads (EP := EP) (FP := FP) (fun _ _ _ => True) q_phi q_linear.
  Proof. apply linear_reads. intros. reflexivity. Qed.
  Lemma q_phi_middle p q r : middle_of p q (q_phi [(1, p); (1, q); (0, r)]) /\ middle_of q r (q_phi [(0, p); (1, q); (1, r)]) /\
    middle_of r p (q_phi [(1, p); (0, q); (1, r)]).
  Proof. repeat split; intros i; cbn -[Qmult Qplus Qdiv]; change (inject_Z 0) with 0%Q; change (inject_Z 1) with 1%Q;
    change (inject_Z 2) with 2%Q; field. Qed.
  Lemma middle_sym p q x : middle_of p q x -> middle_of q p x.
  Proof. intros H i. rewrite (H i). ring. Qed.

  Lemma q_mid (g : graph) e a : WF g -> triangles g -> lv g e = true -> mid_payload q_phi g e = Some a ->
    exists p q, vp g (og g e) = Some p /\ vp g (og g (nx g e)) = Some q /\ middle_of p q a.
  Proof.
    intros W T L. unfold mid_payload. destruct (fc g e) as [f|] eqn:F; [|discriminate]. destruct (same_loop W T L F) as [LX EX].
    set (x := fe g f) in *. clearbody x. destruct (tm_three T LX) as [C _].
    assert (LY : lv g (nx g x) = true) by (apply W; auto). assert (LZ : lv g (nx g (nx g x)) = true) by (apply W; auto).
    pose proof (tm_apart T LX) as A1. pose proof (tm_apart T LY) as A2. pose proof (tm_apart T LZ) as A3.
    rewrite <- (wf_ognx W) in A1, A2, A3 by auto. rewrite C in A3.
    destruct (vp g (og g x)) as [px|] eqn:X1; [|discriminate]. destruct (vp g (og g (nx g x))) as [py|] eqn:X2; [|discriminate].
    destruct (vp g (og g (nx g (nx g x)))) as [pz|] eqn:X3; [|discriminate]. intros [= <-].
    destruct (q_phi_middle px py pz) as (H1 & H2 & H3).
    destruct EX as [-> | [-> | ->]]; rewrite ?C, ?Nat.eqb_refl, ?orb_true_r; cbn [orb].
    - rewrite (proj2 (Nat.eqb_neq _ _) A2), (proj2 (Nat.eqb_neq _ _) (not_eq_sym A3)). cbn [orb]. eauto.
    - rewrite (proj2 (Nat.eqb_neq _ _) A3), (proj2 (Nat.eqb_neq _ _) (not_eq_sym A1)). cbn [orb]. eauto.
    - rewrite (proj2 (Nat.eqb_neq _ _) A1), (proj2 (Nat.eqb_neq _ _) (not_eq_sym A2)). cbn [orb]. eauto.
  Qed.
  Theorem linear_subdivision (dE : EP) (c : cfg) (m : mesh (pnu Q) EP FP) : wf m -> triangles (abs m) ->
    fits c m (3 * num_edges m) (num_edges m / 2) (3 * num_faces m) ->
    exists m' mid, loop_subdivision dE q_linear c m = Ok m' /\ wf m' /\ subdivided mid (abs m) (abs m') /\
      forall e, lv (abs m) e = true -> exists p q x, vp (abs m) (og (abs m) e) = Some p /\
        vp (abs m) (og (abs m) (tw (abs m) e)) = Some q /\ vp (abs m') (mid e) = Some x /\ middle_of p q x.
  Proof.
    intros Wm T FT. pose proof (wf_abs Wm) as [_ W].
    destruct (@loop_subdivision_ok _ _ _ q_phi dE _ _ q_reads c m 0 0 0 Wm T) as (m' & mid & RUN & Wm' & T' & SD & MD & _).
    { intros h p q r _ _ _ _. exact I. }
    { rewrite !Nat.add_0_r. exact FT. }
    exists m', mid. split; [exact RUN|]. split; [exact Wm'|]. split; [exact SD|].
    intros e L. destruct (MD e L) as (e' & E & EQ & NN). destruct (vp (abs m') (mid e)) as [x|] eqn:X; [|tauto].
    symmetry in EQ. rewrite <- (wf_ognx W _ L). destruct E as [-> | ->].
    - destruct (q_mid W T L EQ) as (p & q & P & Q & M). exists p, q, x. auto.
    - assert (LT : lv (abs m) (tw (abs m) e) = true) by (apply W; auto). destruct (q_mid W T LT EQ) as (p & q & P & Q & M).
      rewrite <- (wf_ognx W _ L) in P. rewrite (wf_ognx W _ LT), (wf_twtw W _ L) in Q. exists q, p, x. split; [exact Q|].
      split; [exact P|]. split; [reflexivity|]. apply middle_sym, M.
  Qed.
End Linear.

(** a tetrahedron with rational positions *)
Definition q_tetrahedron : mesh (pnu Q) nat nat := get_ok empty_mesh
  (pyramid 0 7 c0 (map (q_at []) [[0; 0; 0]; [1; 0; 0]; [0; 1; 0]]%Q) (q_at [] [0; 0; 1]%Q)).
Lemma q_tetrahedron_ok : wf q_tetrahedron /\ triangles (abs q_tetrahedron) /\ num_edges q_tetrahedron = 12 /\
  fits c0 q_tetrahedron (3 * num_edges q_tetrahedron) (num_edges q_tetrahedron / 2) (3 * num_faces q_tetrahedron).
Proof.
  split; [apply wfb_ok; vm_compute; reflexivity|]. split; [apply trianglesb_ok; vm_compute; reflexivity|].
  split; [vm_compute; reflexivity|]. repeat split; apply Nat.leb_le; vm_compute; reflexivity.
Qed.
