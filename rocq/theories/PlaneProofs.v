(** Proofs for faces rotated into the plane. *)
From Coq Require Import List Arith Lia Bool Reals Lra RealField Setoid Ring_theory Permutation Nsatz.
From Verif Require Import Base DVec DVecFacts Mesh Spec MeshSpec MeshMore MeshFacts TopoSpec BuildSpec BuildStep Rep Traverse MeshProofs IsoProofs Cycle CheckProofs.
From Verif Require Import Tess Alg AlgSpec TriSpec AlgProofs Transform TransSpec TransProofs Normals NormalsSpec NormalsProofs Plane PlaneSpec.
Import ListNotations.
Set Implicit Arguments.
Unset Strict Implicit.
Local Arguments abs : simpl never.
Local Open Scope R_scope.

Notation tele := (esum_tele (@eq_equivalence R) (Eq_ext Rplus Rmult Ropp) RTheory).

(** ** Flattening *)
Lemma flattens_ext u w h : (forall i, (i < 3)%nat -> u i = w i) -> flattens u h -> flattens w h.
Proof.
  intros E [D T]. unfold flattens, dot3 in *. rewrite <- !E by lia. auto.
Qed.
Lemma flattens_image u h k : (forall p, h p = k p) -> flattens u h -> flattens u k.
Proof. intros E [D T]. split; intros; rewrite <- !E; auto. Qed.

(** rows of a rotation *)
Lemma rows_flatten (r s u : rvec) (h : rvec -> R * R) :
  (forall p, h p = (rdot r p, rdot s p)) ->
  (forall i, (i < 3)%nat -> vcross r s i = u i) ->
  (forall i j, (i < 3)%nat -> (j < 3)%nat -> r i * r j + s i * s j + u i * u j = if Nat.eqb i j then 1 else 0) -> flattens u h.
Proof.
  intros H C I. split.
  - intros p q. rewrite !H. unfold dist2, fst, snd, dot3, vsub.
    pose proof (I 0%nat 0%nat ltac:(lia) ltac:(lia)) as I00. pose proof (I 0%nat 1%nat ltac:(lia) ltac:(lia)) as I01. pose proof (I 0%nat 2%nat ltac:(lia) ltac:(lia)) as I02.
    pose proof (I 1%nat 1%nat ltac:(lia) ltac:(lia)) as I11. pose proof (I 1%nat 2%nat ltac:(lia) ltac:(lia)) as I12. pose proof (I 2%nat 2%nat ltac:(lia) ltac:(lia)) as I22.
    cbn [Nat.eqb] in *. clear - I00 I01 I02 I11 I12 I22.
    set (x := p 0%nat - q 0%nat). set (y := p 1%nat - q 1%nat). set (z := p 2%nat - q 2%nat).
    transitivity ((r 0%nat * r 0%nat + s 0%nat * s 0%nat) * (x * x) + (r 1%nat * r 1%nat + s 1%nat * s 1%nat) * (y * y) + (r 2%nat * r 2%nat + s 2%nat * s 2%nat) * (z * z)
      + 2 * (r 0%nat * r 1%nat + s 0%nat * s 1%nat) * (x * y) + 2 * (r 0%nat * r 2%nat + s 0%nat * s 2%nat) * (x * z) + 2 * (r 1%nat * r 2%nat + s 1%nat * s 2%nat) * (y * z)).
    { unfold x, y, z. ring. }
    replace (r 0%nat * r 0%nat + s 0%nat * s 0%nat) with (1 - u 0%nat * u 0%nat) by lra. replace (r 1%nat * r 1%nat + s 1%nat * s 1%nat) with (1 - u 1%nat * u 1%nat) by lra.
    replace (r 2%nat * r 2%nat + s 2%nat * s 2%nat) with (1 - u 2%nat * u 2%nat) by lra. replace (r 0%nat * r 1%nat + s 0%nat * s 1%nat) with (- (u 0%nat * u 1%nat)) by lra.
    replace (r 0%nat * r 2%nat + s 0%nat * s 2%nat) with (- (u 0%nat * u 2%nat)) by lra. replace (r 1%nat * r 2%nat + s 1%nat * s 2%nat) with (- (u 1%nat * u 2%nat)) by lra. ring.
  - intros p q t. rewrite !H. unfold turn2, fst, snd, dot3, vsub. rewrite <- !C by lia. unfold vcross, cross3. ring.
Qed.

(** the rotation about the axis (a, b, 0) by an angle with cosine [k] and sine [s] *)
Lemma axis_flatten (a b s k : R) (r t : rvec) h : a * a + b * b = 1 -> s * s + k * k = 1 ->
  (forall p, h p = (rdot r p, rdot t p)) ->
  r 0%nat = a * a + (1 - a * a) * k -> r 1%nat = a * b * (1 - k) -> r 2%nat = b * s ->
  t 0%nat = a * b * (1 - k) -> t 1%nat = b * b + (1 - b * b) * k -> t 2%nat = - (a * s) ->
  flattens (r_new (- (b * s)) (a * s) k) h.
Proof.
  intros A S H R0 R1 R2 T0 T1 T2. apply (@rows_flatten r t); auto.
  - intros i L. destruct i as [|[|[|]]]; [| | |lia]; cbn [r_new]; unfold vcross, cross3; rewrite ?R0, ?R1, ?R2, ?T0, ?T1, ?T2; clear - A S; nsatz.
  - intros i j L M. destruct i as [|[|[|]]]; try lia; destruct j as [|[|[|]]]; try lia; cbn [r_new Nat.eqb]; rewrite ?R0, ?R1, ?R2, ?T0, ?T1, ?T2; clear - A S; nsatz.
Qed.

Lemma flatten_cross u h p q : flattens u h ->
  cross2 Rmult Rminus (h p) (h q) = rdot u (vcross p q) + (cross2 Rmult Rminus (h (fun _ => 0)) (h q) - cross2 Rmult Rminus (h (fun _ => 0)) (h p)).
Proof.
  intros [_ T]. specialize (T (fun _ => 0) p q). unfold turn2, dot3, vcross, vsub, cross3 in T. unfold cross2, dot3, vcross, cross3.
  rewrite !Rminus_0_r in T. lra.
Qed.
(** the signed area of the image of a polygon is its area vector along [u] *)
Lemma flatten_area u h (l : list rvec) a : flattens u h ->
  (forall i, (i < 3)%nat -> a i = / 2 * esum 0 Rplus (cross3 Rmult Rminus i) (poly_edges l)) ->
  area2 (map h l) = rdot u a.
Proof.
  intros F A. unfold area2, dot3. rewrite !A by lia.
  rewrite poly_edges_map, esum_map.
  rewrite (esum_ext 0 (@eq_equivalence R) (Eq_ext Rplus Rmult Ropp) (w' := fun x y => rdot u (vcross x y) + (cross2 Rmult Rminus (h (fun _ => 0)) (h y) - cross2 Rmult Rminus (h (fun _ => 0)) (h x))))
    by (intros; apply flatten_cross; auto).
  rewrite (esum_add (@eq_equivalence R) (Eq_ext Rplus Rmult Ropp) RTheory), (tele (fun x => cross2 Rmult Rminus (h (fun _ => 0)) (h x))).
  assert (E : forall es, esum 0 Rplus (fun x y => rdot u (vcross x y)) es = u 0%nat * esum 0 Rplus (cross3 Rmult Rminus 0) es + u 1%nat * esum 0 Rplus (cross3 Rmult Rminus 1) es + u 2%nat * esum 0 Rplus (cross3 Rmult Rminus 2) es).
  { induction es as [|[x y] es IH]; cbn [esum]; [ring|]. rewrite IH. unfold dot3, vcross. ring. }
  rewrite E. field.
Qed.
Lemma direction_len a u : direction a u -> 0 <= rdot u a /\ rdot u a * rdot u a = rdot a a.
Proof.
  intros [(k & K & U & E)|Z].
  - assert (D : rdot u a = k) by (unfold dot3 in *; rewrite !E by lia; transitivity (k * (u 0%nat * u 0%nat + u 1%nat * u 1%nat + u 2%nat * u 2%nat)); [ring|rewrite U; ring]).
    rewrite D. split; [lra|]. rewrite (dot_scaled E), U. ring.
  - assert (D : rdot u a = 0) by (unfold dot3; rewrite !(fun i L => proj2 (Z i L)) by lia; ring). rewrite D. split; [lra|].
    rewrite dot_null; [ring|]. intros; apply Z; auto.
Qed.
Lemma laid_out_fst {FP} (g : graph (pnu R) (curve R) FP) (h : rvec -> R * R) out vs ps : map (vp g) vs = map Some ps ->
  out = combine (map (fun p => h (@u_pos R p)) ps) vs -> map fst out = map h (map (@u_pos R) ps) /\ map snd out = vs.
Proof.
  intros M ->. assert (L : length ps = length vs) by (rewrite <- (map_length Some ps), <- M, map_length; auto). clear M. rewrite map_map. revert vs L.
  induction ps as [|p ps IH]; intros [|v vs] L; cbn in *; try discriminate; auto. injection L as L. destruct (IH vs L) as [E1 E2]. rewrite E1, E2. auto.
Qed.
Lemma payloads_det {A} (ps qs : list A) : map Some ps = map Some qs -> ps = qs.
Proof.
  revert qs. induction ps as [|p ps IH]; intros [|q qs] E; try discriminate; auto.
  pose proof (f_equal (hd None) E) as E1. pose proof (f_equal (@tl _) E) as E2. cbn in E1, E2. injection E1 as ->. rewrite (IH qs E2). auto.
Qed.
Lemma boundary_det {FP} (m : mesh (pnu R) (curve R) FP) f vs ws : wf m -> lvf (abs m) f = true ->
  boundary_vertices (abs m) f vs -> boundary_vertices (abs m) f ws -> vs = ws.
Proof.
  intros Wm L B B'. pose proof (boundary_face_vertices Wm L B) as E. rewrite (boundary_face_vertices Wm L B') in E. congruence.
Qed.
Lemma laid_area {FP} (m : mesh (pnu R) (curve R) FP) f u h out a : wf m -> lvf (abs m) f = true ->
  laid_out (abs m) f h out -> flattens u h -> face_area (abs m) f a -> area2 (map fst out) = rdot u a.
Proof.
  intros Wm L (vs & ps & B & M & O) F (ws & qs & B' & M' & A).
  rewrite (boundary_det Wm L B' B), M in M'. apply payloads_det in M'. subst qs. destruct (laid_out_fst M O) as [E _]. rewrite E. eapply flatten_area; eauto.
Qed.

(** ** The rotation of nalgebra *)
Lemma mvec_row r v i : mvec 0 Rplus Rmult 3 r v i = rdot (r i) v.
Proof. unfold mvec, rsum, dot3. cbn. ring. Qed.
Lemma apply_rotation r v i : a_apply 0 Rplus Rmult 3 (a_from_rotation 0 r) v i = rdot (r i) v.
Proof. unfold a_apply, a_from_rotation. cbn [a_mat a_tr]. rewrite mvec_row. ring. Qed.
Lemma len_up : r_len (r_new 0 0 1) = 1.
Proof. unfold r_len. cbn [r_new]. replace (0 * 0 + 0 * 0 + 1 * 1) with 1 by ring. apply sqrt_1. Qed.
Lemma normalize_up : r_normalize (r_new 0 0 1) = (fun i => r_new 0 0 1 i / 1).
Proof. unfold r_normalize. rewrite len_up. destruct (Req_EM_T 1 0); [lra|]. reflexivity. Qed.
Definition side2 (u : rvec) : R := u 0%nat * u 0%nat + u 1%nat * u 1%nat.

Lemma up_eq i : (i < 3)%nat -> r_new 0 0 1 i = up i.
Proof. destruct i as [|[|[|]]]; auto; lia. Qed.
Lemma projection_flattens : flattens up (fun p => (p 0%nat, p 1%nat)).
Proof.
  apply (@rows_flatten (r_new 1 0 0) (r_new 0 1 0)).
  - intros p. unfold dot3. cbn [r_new]. f_equal; ring.
  - intros i L. destruct i as [|[|[|]]]; [| | |lia]; cbn [r_new vcross cross3 up]; ring.
  - intros i j L M. destruct i as [|[|[|]]]; try lia; destruct j as [|[|[|]]]; try lia; cbn [r_new Nat.eqb up]; ring.
Qed.
Lemma ident_xy v : a_apply 0 Rplus Rmult 3 (a_from_rotation 0 (ident 0 1)) v 0%nat = v 0%nat /\ a_apply 0 Rplus Rmult 3 (a_from_rotation 0 (ident 0 1)) v 1%nat = v 1%nat.
Proof. rewrite !apply_rotation. unfold dot3, ident. cbn. split; ring. Qed.

Local Ltac fin := match goal with YY : ?y * ?y = _ |- _ => replace (y ^ 4) with ((y * y) * (y * y)) by ring; replace (y ^ 3) with (y * (y * y)) by ring;
  replace (y ^ 2) with (y * y) by ring; rewrite ?YY; ring end.
Section Arc.
  Variables (eps : R) (u : rvec).
  Hypothesis E0 : 0 <= eps.
  Lemma arc_zero : (forall i, (i < 3)%nat -> u i = 0) ->
    arc_nalgebra eps u (r_normalize (r_new 0 0 1)) = Some (a_apply 0 Rplus Rmult 3 (a_from_rotation 0 (ident 0 1))).
  Proof.
    intros Z. unfold arc_nalgebra, rotation_between. destruct (Req_EM_T (r_len u) 0) as [|N]; [reflexivity|]. destruct N.
    unfold r_len. rewrite !Z by lia. replace (0 * 0 + 0 * 0 + 0 * 0) with 0 by ring. apply sqrt_0.
  Qed.
  Hypothesis U : rdot u u = 1.
  Lemma len_unit : r_len u = 1.
  Proof. rewrite len_dot, U. apply sqrt_1. Qed.
  Lemma side_range : 0 <= side2 u <= 1 /\ side2 u + u 2%nat * u 2%nat = 1.
  Proof. unfold dot3 in U. unfold side2. pose proof (Rle_0_sqr (u 0%nat)). pose proof (Rle_0_sqr (u 1%nat)). pose proof (Rle_0_sqr (u 2%nat)). unfold Rsqr in *. lra. Qed.
  Notation na := (fun i => u i / r_len u).
  Notation nb := (fun i => r_normalize (r_new 0 0 1) i / r_len (r_normalize (r_new 0 0 1))).
  Lemma nb_eq i : nb i = r_new 0 0 1 i.
  Proof.
    rewrite normalize_up. assert (r_len (fun i => r_new 0 0 1 i / 1) = 1) as ->; [|field].
    transitivity (r_len (r_new 0 0 1)); [|apply len_up]. unfold r_len. f_equal. field.
  Qed.
  Lemma na_eq i : na i = u i.
  Proof. cbv beta. rewrite len_unit. field. Qed.
  Lemma c_eq : r_cross na nb 0%nat = u 1%nat /\ r_cross na nb 1%nat = - u 0%nat /\ r_cross na nb 2%nat = 0.
  Proof.
    unfold r_cross. cbn [r_new].
    rewrite !(nb_eq 0), !(nb_eq 1), !(nb_eq 2). rewrite !(na_eq 0), !(na_eq 1), !(na_eq 2). cbn [r_new].
    repeat split; ring.
  Qed.
  Lemma d_eq : r_dot na nb = u 2%nat.
  Proof. unfold r_dot. rewrite (nb_eq 0), (nb_eq 1), (nb_eq 2), (na_eq 0), (na_eq 1), (na_eq 2). cbn [r_new]. ring. Qed.
  Lemma c_len : r_len (r_cross na nb) = sqrt (side2 u).
  Proof. destruct c_eq as (A & B & C). rewrite (len_dot (r_cross na nb)). unfold dot3. rewrite A, B, C. f_equal. unfold side2. ring. Qed.
  Lemma eps_side : eps < sqrt (side2 u) <-> eps * eps < side2 u.
  Proof.
    pose proof side_range as [[S _] _]. split; intros H.
    - pose proof (sqrt_sqrt _ S) as Q. rewrite <- Q. apply Rmult_le_0_lt_compat; auto.
    - rewrite <- (sqrt_square eps E0). apply sqrt_lt_1_alt. split; auto. apply Rmult_le_pos; auto.
  Qed.
  Lemma nonzero : r_len u <> 0 /\ r_len (r_normalize (r_new 0 0 1)) <> 0.
  Proof.
    rewrite len_unit. split; [lra|]. rewrite normalize_up. assert (r_len (fun i => r_new 0 0 1 i / 1) = 1) as ->; [|lra].
    transitivity (r_len (r_new 0 0 1)); [|apply len_up]. unfold r_len. f_equal. field.
  Qed.

  Lemma arc_side : eps * eps < side2 u -> exists h, arc_nalgebra eps u (r_normalize (r_new 0 0 1)) = Some h /\ flattens u (fun p => (h p 0%nat, h p 1%nat)).
  Proof.
    intros H. unfold arc_nalgebra, rotation_between. destruct nonzero as [N1 N2].
    destruct (Req_EM_T _ 0) as [|_]; [tauto|]. destruct (Req_EM_T _ 0) as [|_]; [tauto|]. cbv zeta.
    rewrite c_len. destruct (Rlt_dec _ _) as [_|X]; [|destruct X; apply eps_side; auto]. cbn [option_map]. rewrite d_eq.
    pose proof side_range as ((S0 & S1) & SQ). pose proof (sqrt_sqrt _ S0) as SS.
    set (s := sqrt (side2 u)) in *. destruct c_eq as (C0 & C1 & C2). set (cv := r_cross _ _) in *. clearbody cv.
    assert (SP : 0 < s). { apply sqrt_lt_R0. pose proof (Rmult_le_pos _ _ E0 E0). lra. }
    assert (K1 : -1 <= u 2%nat <= 1). { pose proof (Rle_0_sqr (1 - u 2%nat)). unfold Rsqr in *. split; nra. }
    eexists. split; [reflexivity|].
    unfold from_axis_angle. destruct (Req_EM_T (acos (u 2%nat)) 0) as [Z|_].
    { exfalso. assert (u 2%nat = 1) by (rewrite <- (cos_acos _ K1), Z; apply cos_0). nra. }
    rewrite cos_acos, sin_acos by auto. replace (sqrt (1 - Rsqr (u 2%nat))) with s by (unfold s, Rsqr; f_equal; lra).
    set (a := u 1%nat / s). set (b := - u 0%nat / s).
    eapply flattens_ext; [|eapply (@axis_flatten a b s (u 2%nat))].
    - intros i L. destruct i as [|[|[|]]]; [| | |lia]; cbn [r_new]; unfold a, b; field; lra.
    - unfold a, b. unfold side2 in SS. field_simplify; [|lra]. apply (Rmult_eq_reg_r (s ^ 2)); [|nra]. field_simplify; [nra|lra].
    - lra.
    - intros p. rewrite !apply_rotation. reflexivity.
    - cbn [r_new]. rewrite C0. fold a. ring.
    - cbn [r_new]. rewrite ?C0, ?C1, ?C2. fold a; fold b. first [ring | field; lra].
    - cbn [r_new]. rewrite ?C0, ?C1, ?C2. fold a; fold b. first [ring | field; lra].
    - cbn [r_new]. rewrite ?C0, ?C1, ?C2. fold a; fold b. first [ring | field; lra].
    - cbn [r_new]. rewrite ?C0, ?C1, ?C2. fold a; fold b. first [ring | field; lra].
    - cbn [r_new]. rewrite ?C0, ?C1, ?C2. fold a; fold b. first [ring | field; lra].
  Qed.
  Lemma arc_pole : side2 u <= eps * eps -> arc_nalgebra eps u (r_normalize (r_new 0 0 1)) =
    if Rlt_dec (u 2%nat) 0 then None else Some (a_apply 0 Rplus Rmult 3 (a_from_rotation 0 (ident 0 1))).
  Proof.
    intros H. unfold arc_nalgebra, rotation_between. destruct nonzero as [N1 N2].
    destruct (Req_EM_T _ 0) as [|_]; [tauto|]. destruct (Req_EM_T _ 0) as [|_]; [tauto|]. cbv zeta.
    rewrite c_len. destruct (Rlt_dec eps _) as [X|_]; [apply eps_side in X; lra|]. rewrite d_eq. destruct (Rlt_dec (u 2%nat) 0); reflexivity.
  Qed.

  (** glam *)
  Lemma arc_bevy_side e : -(1 - 2 * e) <= u 2%nat <= 1 - 2 * e -> 0 < e -> exists h, arc_bevy e u (r_normalize (r_new 0 0 1)) = Some h /\ flattens u (fun p => (h p 0%nat, h p 1%nat)).
  Proof.
    intros H EP. eexists. split; [reflexivity|]. unfold q_arc.
    assert (NU : forall i, r_normalize (r_new 0 0 1) i = r_new 0 0 1 i) by (intros; rewrite normalize_up; field).
    assert (D : r_dot u (r_normalize (r_new 0 0 1)) = u 2%nat) by (unfold r_dot; rewrite !NU; cbn [r_new]; ring). rewrite D.
    destruct (Rlt_dec _ _); [lra|]. destruct (Rlt_dec _ _); [lra|].
    pose proof side_range as ((S0 & S1) & SQ). set (k := u 2%nat) in *.
    set (c := r_cross u (r_normalize (r_new 0 0 1))).
    assert (C0 : c 0%nat = u 1%nat) by (unfold c, r_cross; cbn [r_new]; rewrite !NU; cbn [r_new]; ring).
    assert (C1 : c 1%nat = - u 0%nat) by (unfold c, r_cross; cbn [r_new]; rewrite !NU; cbn [r_new]; ring).
    assert (C2 : c 2%nat = 0) by (unfold c, r_cross; cbn [r_new]; rewrite !NU; cbn [r_new]; ring).
    cbn [q_normalize q_apply]. set (l := sqrt _).
    assert (LL : l * l = 2 * (1 + k)).
    { unfold l. rewrite sqrt_sqrt; unfold r_dot; rewrite C0, C1, C2; unfold side2 in *; nra. }
    assert (LP : l <> 0) by (intros Z; rewrite Z in LL; lra).
    unfold side2 in SQ. assert (K1 : 1 + k <> 0) by lra.
    assert (YY : u 1%nat * u 1%nat = 1 - k * k - u 0%nat * u 0%nat) by lra.
    assert (Q : forall x y, x * ((1 + k) * (1 + k)) = y * ((1 + k) * (1 + k)) -> x = y).
    { intros x y X. apply (Rmult_eq_reg_r ((1 + k) * (1 + k))); auto; nra. }
    apply (@rows_flatten (r_new (k + u 1%nat * u 1%nat / (1 + k)) (- u 0%nat * u 1%nat / (1 + k)) (- u 0%nat)) (r_new (- u 0%nat * u 1%nat / (1 + k)) (k + u 0%nat * u 0%nat / (1 + k)) (- u 1%nat))).
    - intros p. unfold r_dot, dot3, r_cross. cbn [r_new]. rewrite C0, C1, C2.
      assert (IL : / l * / l = / (2 * (1 + k))) by (rewrite <- LL; field; auto).
      assert (W : (1 + k) * (1 + k) - (u 0%nat * u 0%nat + u 1%nat * u 1%nat) = 2 * (1 + k) * k) by nra.
      f_equal.
      + transitivity (p 0%nat * ((1 + k) * (1 + k) - (u 0%nat * u 0%nat + u 1%nat * u 1%nat)) * (/ l * / l) + u 1%nat * 2 * (p 0%nat * u 1%nat - p 1%nat * u 0%nat) * (/ l * / l) + (- u 0%nat * p 2%nat) * (1 + k) * 2 * (/ l * / l)); [field; auto|].
        rewrite IL, W. field. lra.
      + transitivity (p 1%nat * ((1 + k) * (1 + k) - (u 0%nat * u 0%nat + u 1%nat * u 1%nat)) * (/ l * / l) - u 0%nat * 2 * (p 0%nat * u 1%nat - p 1%nat * u 0%nat) * (/ l * / l) - (u 1%nat * p 2%nat) * (1 + k) * 2 * (/ l * / l)); [field; auto|].
        rewrite IL, W. field. lra.
    - intros i L. destruct i as [|[|[|]]]; [| | |lia]; cbn [r_new]; unfold vcross, cross3; cbn [r_new]; fold k; apply Q; field_simplify; auto; fin.
    - intros i j L M. destruct i as [|[|[|]]]; try lia; destruct j as [|[|[|]]]; try lia; cbn [r_new Nat.eqb]; fold k; apply Q; field_simplify; auto; fin.
  Qed.
End Arc.

Lemma bevy_down e (u : rvec) : 0 < e < 1 -> u 0%nat = 0 -> u 1%nat = 0 -> u 2%nat = -1 ->
  exists h, arc_bevy e u (r_normalize (r_new 0 0 1)) = Some h /\ flattens u (fun p => (h p 0%nat, h p 1%nat)).
Proof.
  intros EP U0 U1 U2. eexists. split; [reflexivity|]. unfold q_arc.
  assert (NU : forall i, r_normalize (r_new 0 0 1) i = r_new 0 0 1 i) by (intros; rewrite normalize_up; field).
  assert (D : r_dot u (r_normalize (r_new 0 0 1)) = -1) by (unfold r_dot; rewrite !NU; cbn [r_new]; rewrite U2; ring). rewrite D.
  destruct (Rlt_dec (1 - 2 * e) (-1)) as [X|_]; [lra|]. destruct (Rlt_dec _ _) as [_|X]; [|lra].
  unfold q_axis_angle, q_apply. rewrite sin_PI2, cos_PI2. unfold any_orthonormal. destruct (Rlt_dec (u 2%nat) 0) as [_|X]; [|lra].
  rewrite U0, U1, U2. cbv zeta.
  apply (@rows_flatten (r_new (-1) 0 0) (r_new 0 1 0)).
  - intros p. unfold r_dot, dot3, r_cross. cbn [r_new]. f_equal; field.
  - intros i L. destruct i as [|[|[|]]]; [| | |lia]; unfold vcross, cross3; cbn [r_new]; rewrite ?U0, ?U1, ?U2; ring.
  - intros i j L M. destruct i as [|[|[|]]]; try lia; destruct j as [|[|[|]]]; try lia; cbn [r_new Nat.eqb]; rewrite ?U0, ?U1, ?U2; ring.
Qed.

(** ** Faces of a mesh *)
Lemma tilted_side eps a u : direction a u -> tilted eps a -> rdot u u = 1 /\ eps * eps < side2 u.
Proof.
  intros [(k & K & U & E)|Z] T; unfold tilted in T.
  - rewrite (dot_scaled E), U, !E in T by lia. split; auto. unfold side2.
    assert (KK : 0 < k * k) by nra. apply (Rmult_lt_reg_l (k * k)); auto. lra.
  - rewrite dot_null, !(fun i L => proj1 (Z i L)) in T by (auto; intros; apply Z; auto). lra.
Qed.
Lemma level_side eps a u : direction a u -> ~ tilted eps a -> (exists i, (i < 3)%nat /\ a i <> 0) -> rdot u u = 1 /\ side2 u <= eps * eps /\ exists k, 0 < k /\ a 2%nat = k * u 2%nat.
Proof.
  intros [(k & K & U & E)|Z] T (i & L & N); [|destruct N; apply Z; auto]. unfold tilted in T. rewrite (dot_scaled E), U, !E in T by lia. split; auto. split; [|exists k; split; auto].
  unfold side2. assert (KK : 0 < k * k) by nra. apply Rnot_lt_le in T. apply (Rmult_le_reg_l (k * k)); auto. lra.
Qed.

Section Mesh.
  Context {FP : Type}.
  Notation mesh := (mesh (pnu R) (curve R) FP).
  Notation graph := (graph (pnu R) (curve R) FP).
  Implicit Types (m : mesh) (g : graph).
  Variables (planar : nat -> bool) (c : cfg).

  Lemma area_det m f a b : wf m -> lvf (abs m) f = true -> face_area (abs m) f a -> face_area (abs m) f b -> forall i, (i < 3)%nat -> a i = b i.
  Proof.
    intros Wm L (vs & ps & B & M & A) (ws & qs & B' & M' & A') i Hi. rewrite (boundary_det Wm L B' B), M in M'. apply payloads_det in M'. subst qs.
    rewrite A, A' by auto. reflexivity.
  Qed.
  Lemma unit_normal_ok m f a u : wf m -> lvf (abs m) f = true -> (dbg c = true -> planar f = true) -> face_area (abs m) f a -> direction a u ->
    exists n, unit_normal planar c m f = Ok n /\ direction a n /\ forall i, (i < 3)%nat -> n i = u i.
  Proof.
    intros Wm L P A D. destruct (fnormal_area Wm L) as (n & E & An). exists (r_normalize n). unfold unit_normal. rewrite E.
    assert (DN : direction a (r_normalize n)) by (apply normalize_direction; intros i Hi; eapply area_det; eauto).
    split; [|split; [auto|]].
    - destruct (dbg c); [rewrite P by auto|]; reflexivity.
    - intros i Hi. eapply direction_unique; eauto.
  Qed.
  Lemma v2d_run arc m f n : wf m -> lvf (abs m) f = true -> unit_normal planar c m f = Ok n ->
    match arc n (r_normalize (r_new 0 0 1)) with
    | Some h => exists out, vertices_2d arc planar c m f = Ok out /\ laid_out (abs m) f (fun p => (h p 0%nat, h p 1%nat)) out
    | None => vertices_2d arc planar c m f = Panic
    end.
  Proof.
    intros Wm L E. unfold vertices_2d. rewrite E. cbn [bind]. destruct (arc n (r_normalize (r_new 0 0 1))) as [h|]; [|reflexivity]. cbn [unwrap bind].
    destruct (boundary_exists Wm L) as (vs & B). rewrite (boundary_face_vertices Wm L B). cbn [bind].
    destruct (wf_abs Wm) as [Rp W]. pose proof (boundary_live Wm B) as F.
    match goal with |- context [mapM ?f vs] => set (G := f) end.
    assert (X : exists ps, map (vp (abs m)) vs = map Some ps /\ mapM G vs = Ok (combine (map (fun p => (h (@u_pos R p) 0%nat, h (u_pos p) 1%nat)) ps) vs)).
    { clear B. induction F as [|v vs LV F (ps & M & Q)]; [exists []; auto|].
      destruct (r_vertex_live Rp _ LV) as (x & X & _ & P). exists (v_pay x :: ps). cbn [map mapM combine]. rewrite Q, M, P. unfold G. rewrite X. cbn [bind]. auto. }
    destruct X as (ps & M & Q). rewrite Q. eexists. split; [reflexivity|]. exists vs, ps. auto.
  Qed.

  Section Nalgebra.
    Variables (eps : R).
    Hypothesis E0 : 0 <= eps.
    Notation v2d := (vertices_2d (arc_nalgebra eps) planar c).

    Lemma plane_ok m f a u : wf m -> lvf (abs m) f = true -> (dbg c = true -> planar f = true) ->
      face_area (abs m) f a -> direction a u -> tilted eps a ->
      exists h out, v2d m f = Ok out /\ laid_out (abs m) f h out /\ flattens u h.
    Proof.
      intros Wm L P A D T. destruct (unit_normal_ok Wm L P A D) as (n & E & DN & NU). pose proof (v2d_run (arc_nalgebra eps) Wm L E) as V.
      destruct (tilted_side DN T) as [U S]. destruct (arc_side E0 U S) as (h & X & F). rewrite X in V. destruct V as (out & V & LO).
      eexists _, out. split; auto. split; [exact LO|]. eapply flattens_ext; eauto.
    Qed.
    Lemma zero_or (a : rvec) : (forall i, (i < 3)%nat -> a i = 0) \/ exists i, (i < 3)%nat /\ a i <> 0.
    Proof.
      destruct (Req_EM_T (a 0%nat) 0) as [A|A]; [|right; exists 0%nat; auto]. destruct (Req_EM_T (a 1%nat) 0) as [B|B]; [|right; exists 1%nat; split; auto].
      destruct (Req_EM_T (a 2%nat) 0) as [C|C]; [|right; exists 2%nat; auto]. left. intros [|[|[|]]] L; auto. lia.
    Qed.
    Lemma exists_direction (a : rvec) : exists u, direction a u.
    Proof. exists (r_normalize a). apply normalize_direction. auto. Qed.
    Lemma level_ok m f a : wf m -> lvf (abs m) f = true -> (dbg c = true -> planar f = true) ->
      face_area (abs m) f a -> ~ tilted eps a -> 0 <= a 2%nat ->
      exists out, v2d m f = Ok out /\ laid_out (abs m) f (fun p => (p 0%nat, p 1%nat)) out /\ area2 (map fst out) = a 2%nat.
    Proof.
      intros Wm L P A T S. destruct (exists_direction a) as (u & D). destruct (unit_normal_ok Wm L P A D) as (n & E & DN & _).
      pose proof (v2d_run (arc_nalgebra eps) Wm L E) as V.
      assert (K : arc_nalgebra eps n (r_normalize (r_new 0 0 1)) = Some (a_apply 0 Rplus Rmult 3 (a_from_rotation 0 (ident 0 1)))).
      { destruct (zero_or a) as [Z|Z].
        - apply arc_zero. intros i Hi. destruct DN as [(k & K & U & X)|Y]; [|apply Y; auto]. exfalso.
          assert (H : rdot a a = 0) by (apply dot_null; auto). rewrite (dot_scaled X), U in H. nra.
        - destruct (level_side DN T Z) as (U & SI & k & K & AK). rewrite (arc_pole E0 U SI). destruct (Rlt_dec (n 2%nat) 0); [nra|auto]. }
      rewrite K in V. destruct V as (out & V & (vs & ps & B & M & O)).
      assert (LO : laid_out (abs m) f (fun p => (p 0%nat, p 1%nat)) out).
      { exists vs, ps. split; auto. split; auto. rewrite O. f_equal. apply map_ext. intros p. destruct (ident_xy (u_pos p)) as [-> ->]. auto. }
      exists out. split; auto. split; auto. rewrite (laid_area Wm L LO projection_flattens A). unfold dot3, up. ring.
    Qed.
    Lemma down_panics m f a : wf m -> lvf (abs m) f = true -> face_area (abs m) f a -> looks_down eps a -> v2d m f = Panic.
    Proof.
      intros Wm L A [S T]. destruct (dbg c && negb (planar f)) eqn:DP.
      { unfold vertices_2d, unit_normal. apply andb_prop in DP as [-> PF]. destruct (planar f); [discriminate PF|]. reflexivity. }
      assert (P : dbg c = true -> planar f = true) by (intros X; rewrite X in DP; destruct (planar f); auto; discriminate DP).
      destruct (exists_direction a) as (u & D). destruct (unit_normal_ok Wm L P A D) as (n & E & DN & _).
      pose proof (v2d_run (arc_nalgebra eps) Wm L E) as V.
      assert (Z : exists i, (i < 3)%nat /\ a i <> 0) by (exists 2%nat; split; [lia|lra]).
      destruct (level_side DN T Z) as (U & SI & k & K & AK). rewrite (arc_pole E0 U SI) in V. destruct (Rlt_dec (n 2%nat) 0); [auto|nra].
    Qed.
    Lemma panic_iff m f a : wf m -> lvf (abs m) f = true -> face_area (abs m) f a ->
      (v2d m f = Panic /\ (dbg c = true /\ planar f = false \/ looks_down eps a)) \/
      ((exists out, v2d m f = Ok out) /\ ~ (dbg c = true /\ planar f = false \/ looks_down eps a)).
    Proof.
      intros Wm L A. destruct (dbg c && negb (planar f)) eqn:DP.
      { left. apply andb_prop in DP as [DB PF]. destruct (planar f) eqn:PL; [discriminate PF|]. split; auto. unfold vertices_2d, unit_normal. rewrite DB, PL. reflexivity. }
      assert (P : dbg c = true -> planar f = true) by (intros X; rewrite X in DP; destruct (planar f); auto; discriminate DP).
      assert (PN : ~ (dbg c = true /\ planar f = false)) by (intros [X Y]; rewrite P in Y by auto; discriminate).
      destruct (Rlt_dec (eps * eps * rdot a a) (a 0%nat * a 0%nat + a 1%nat * a 1%nat)) as [T|T].
      - right. destruct (exists_direction a) as (u & D). destruct (plane_ok Wm L P A D T) as (h & out & E & _). split; [eauto|]. intros [X|[_ X]]; auto.
      - destruct (Rlt_dec (a 2%nat) 0) as [S|S].
        + left. assert (LD : looks_down eps a) by (split; auto). split; [|auto]. eapply down_panics; eauto.
        + right. apply Rnot_lt_le in S. destruct (level_ok Wm L P A T S) as (out & E & _). split; [eauto|]. intros [X|[X _]]; [auto|lra].
    Qed.
  End Nalgebra.

  Section Bevy.
    Variables (eps : R).
    Hypothesis E0 : 0 < eps < 1.
    Notation v2d := (vertices_2d (arc_bevy eps) planar c).
    Lemma bevy_ok m f a u : wf m -> lvf (abs m) f = true -> (dbg c = true -> planar f = true) ->
      face_area (abs m) f a -> direction a u -> rdot u u = 1 -> -(1 - 2 * eps) <= u 2%nat <= 1 - 2 * eps \/ u 2%nat = -1 ->
      exists h out, v2d m f = Ok out /\ laid_out (abs m) f h out /\ flattens u h.
    Proof.
      intros Wm L P A D U1 T. destruct (unit_normal_ok Wm L P A D) as (n & E & DN & NU). pose proof (v2d_run (arc_bevy eps) Wm L E) as V.
      assert (U : rdot n n = 1) by (unfold dot3 in *; rewrite !NU by lia; auto). rewrite <- NU in T by lia.
      assert (exists h, arc_bevy eps n (r_normalize (r_new 0 0 1)) = Some h /\ flattens n (fun p => (h p 0%nat, h p 1%nat))) as (h & X & F).
      { destruct T as [T|T].
        - apply arc_bevy_side; auto. lra.
        - unfold dot3 in U. rewrite T in U. apply bevy_down; auto; nra. }
      rewrite X in V. destruct V as (out & V & LO). eexists _, out. split; auto. split; [exact LO|]. eapply flattens_ext; eauto.
    Qed.
  End Bevy.
End Mesh.

(** nearly level faces: the projection shortens distances within the face by at most [eps] squared *)
Lemma level_lengths eps a (p q : rvec) : 0 <= eps -> ~ tilted eps a -> 0 < a 2%nat -> rdot a (vsub p q) = 0 ->
  (1 - eps * eps) * rdot (vsub p q) (vsub p q) <= dist2 (p 0%nat, p 1%nat) (q 0%nat, q 1%nat) <= rdot (vsub p q) (vsub p q).
Proof.
  intros E0 T S O. unfold tilted in T. apply Rnot_lt_le in T. unfold dist2, fst, snd, dot3, vsub in *.
  set (x := p 0%nat - q 0%nat) in *. set (y := p 1%nat - q 1%nat) in *. set (z := p 2%nat - q 2%nat) in *.
  set (a0 := a 0%nat) in *. set (a1 := a 1%nat) in *. set (a2 := a 2%nat) in *. set (e := eps * eps) in *.
  assert (Z0 : 0 <= z * z) by nra. split; [|lra].
  assert (C : (a2 * z) * (a2 * z) <= (a0 * a0 + a1 * a1) * (x * x + y * y)).
  { replace (a2 * z) with (- (a0 * x + a1 * y)) by lra. pose proof (Rle_0_sqr (a0 * y - a1 * x)) as Q. unfold Rsqr in Q. clear - Q. lra. }
  assert (D0 : 0 <= x * x + y * y) by nra.
  (* (1 - e) z^2 a2^2 <= e (x^2 + y^2) a2^2 *)
  assert (G : (1 - e) * (z * z) * (a2 * a2) <= e * (x * x + y * y) * (a2 * a2)).
  { destruct (Rle_dec 1 e) as [L|L].
    - assert (0 <= a2 * a2) by nra. assert (0 <= (e - 1) * (z * z) * (a2 * a2)) by (apply Rmult_le_pos; [apply Rmult_le_pos; lra|lra]).
      assert (0 <= e * (x * x + y * y) * (a2 * a2)) by (apply Rmult_le_pos; [apply Rmult_le_pos; lra|lra]). lra.
    - apply Rnot_le_lt in L. assert (1 - e > 0) by lra.
      assert (Q : (1 - e) * (a0 * a0 + a1 * a1) <= e * (a2 * a2)) by lra.
      apply Rle_trans with ((1 - e) * ((a0 * a0 + a1 * a1) * (x * x + y * y))).
      + replace ((1 - e) * (z * z) * (a2 * a2)) with ((1 - e) * ((a2 * z) * (a2 * z))) by ring. apply Rmult_le_compat_l; lra.
      + replace ((1 - e) * ((a0 * a0 + a1 * a1) * (x * x + y * y))) with (((1 - e) * (a0 * a0 + a1 * a1)) * (x * x + y * y)) by ring.
        replace (e * (x * x + y * y) * (a2 * a2)) with ((e * (a2 * a2)) * (x * x + y * y)) by ring. apply Rmult_le_compat_r; auto. }
  assert (A2 : 0 < a2 * a2) by nra. apply Rmult_le_reg_r in G; auto. lra.
Qed.
