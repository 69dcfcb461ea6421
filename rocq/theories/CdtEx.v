(** Delaunay triangulations of examples: a star, and a polygon with a second edge between two of its corners. *)
From Coq Require Import List Arith ZArith Bool Lia Reals Lra.
From Verif Require Import Base DVec DVecFacts Mesh MeshMore Solid Tess Spec MeshSpec MeshFacts TopoSpec TriSpec TessProofs BufferSpec MinWeightSpec TriFacts IsoProofs MeshEx TriMesh TriMeshSpec TriMeshProofs TriMeshEx Cdt CdtSpec CdtMesh.
Import ListNotations.
Set Implicit Arguments.
Unset Strict Implicit.
Local Arguments abs : simpl never.

(** ** Whole meshes *)
Section Whole.
  Context {VP EP FP : Type}.
  Implicit Types (m : mesh VP EP FP).
  Variables (S W : Type) (pos2 : nat -> option (nat -> rvec2)) (planar convex_face simple : nat -> bool) (ds : rvec2 -> rvec2 -> S) (le : S -> S -> bool)
    (cv : rvec2 -> rvec2 -> rvec2 -> bool) (inside3 : rvec2 -> rvec2 -> rvec2 -> rvec2 -> bool) (collinear : rvec2 -> rvec2 -> rvec2 -> bool) (rnd : nat -> nat)
    (addW : W -> W -> W) (ltW : W -> W -> bool) (zeroW : W) (distance : rvec2 -> rvec2 -> W) (valid_diagonal : nat -> nat -> nat -> bool)
    (sweep : mono -> list (rvec2 * nat) -> res (list tri3)).
  Lemma delaunay_mesh m c eps cdt before after : wf m -> weights addW ltW zeroW -> (forall k, sound (sweep k)) -> (0 < eps)%R ->
    (forall f l p, lvf (abs m) f = true -> boundary_vertices (abs m) f l -> pos2 f = Some p -> 3 <= length l ->
      alone (abs m) f l /\ spread eps (map p l) /\ forall D, cdt f (map p l) = Ok D -> constrained (map p l) D) ->
    forall dbg alg blank ix out, alg <> EarClipping ->
    triangulate pos2 planar convex_face simple ds le cv inside3 collinear rnd addW ltW zeroW distance valid_diagonal sweep
      (fun f us => delaunay_triangulation c eps (cdt f) (before f) (after f) m f us) dbg alg blank m = Ok (ix, out) ->
    exists T, ix = flatten T /\ face_by_face (abs m) (fun _ => false) (face_ids m) T /\ (closed (abs m) -> watertight T).
  Proof.
    intros Wm GW GS E0 PR dbg alg blank ix out NA E.
    destruct (@delaunay_sound _ _ _ S W pos2 planar convex_face simple ds le cv inside3 collinear rnd addW ltW zeroW distance valid_diagonal sweep m c eps cdt before after Wm E0 PR) as (del & SD & EX).
    rewrite EX in E.
    destruct (@triangulate_covers _ _ _ _ _ _ _ _ _ _ _ _ _ _ _ _ _ _ _ _ _ _ _ m Wm dbg alg blank ix out GW GS SD NA E) as (T & EI & FB & _).
    exists T. split; [auto|]. split; [auto|]. intros CL.
    destruct (@triangulate_closed _ _ _ _ _ _ _ _ _ _ _ _ _ _ _ _ _ _ _ _ _ _ _ m Wm dbg alg blank ix out GW GS SD NA CL E) as (T' & EI' & WT & _).
    assert (flatten T = flatten T') by congruence. replace T with T'; auto. clear - H. revert T' H.
    induction T as [|[[a b] d] T IH]; intros [|[[a' b'] d'] T'] H; cbn in H; try discriminate; auto.
    injection H as -> -> -> H. f_equal. auto.
  Qed.
End Whole.

(** ** Deciding the conditions for points with whole coordinates *)
Definition real2 (z : Z * Z) : R * R := (IZR (fst z), IZR (snd z)).
Definition zspot (zs : list (Z * Z)) i := nth i zs (0, 0)%Z.
Definition zccw (o a b : Z * Z) : Z := ((fst a - fst o) * (snd b - snd o) - (snd a - snd o) * (fst b - fst o))%Z.
Lemma spot_real zs i : spot (map real2 zs) i = real2 (zspot zs i).
Proof. unfold spot, zspot. change (0, 0)%R with (real2 (0, 0)%Z). apply map_nth. Qed.
Lemma ccw_real zs i j k : ccw2 (spot (map real2 zs) i) (spot (map real2 zs) j) (spot (map real2 zs) k) = IZR (zccw (zspot zs i) (zspot zs j) (zspot zs k)).
Proof. rewrite !spot_real. unfold ccw2, zccw, real2. cbn [fst snd]. rewrite !minus_IZR, !mult_IZR, !minus_IZR. reflexivity. Qed.
Definition spreadb (zs : list (Z * Z)) : bool := all_below (length zs) (fun i => all_below (length zs) (fun j =>
  (i =? j) || (1 <=? (fst (zspot zs j) - fst (zspot zs i)) * (fst (zspot zs j) - fst (zspot zs i)) + (snd (zspot zs j) - snd (zspot zs i)) * (snd (zspot zs j) - snd (zspot zs i)))%Z)).
Lemma spreadb_ok zs eps : spreadb zs = true -> (eps <= 1)%R -> spread eps (map real2 zs).
Proof.
  intros H E i j I J N. rewrite map_length in *. pose proof (all_below_ok (all_below_ok H I) J) as B. cbv beta in B.
  destruct (Nat.eqb_spec i j); [contradiction|]. cbn [orb] in B. apply Z.leb_le in B. apply IZR_le in B. rewrite plus_IZR, !mult_IZR, !minus_IZR in B.
  rewrite !spot_real. unfold real2. cbn [fst snd]. apply Rle_trans with 1%R; auto. rewrite <- sqrt_1. apply sqrt_le_1_alt. exact B.
Qed.
Definition rots (t : nat * nat * nat) : list (nat * nat * nat) := match t with (a, b, c) => [(a, b, c); (b, c, a); (c, a, b)] end.
Lemma seen_rots t v x y : seen t v x y -> In (v, x, y) (rots t).
Proof. intros [-> | [-> | ->]]; cbn; auto. Qed.
Definition pair_eqb (p q : nat * nat) : bool := (fst p =? fst q) && (snd p =? snd q).
Lemma pair_eqb_ok p q : pair_eqb p q = true <-> p = q.
Proof. unfold pair_eqb. destruct p, q. cbn. rewrite andb_true_iff, !Nat.eqb_eq. split; [intros [-> ->]; auto|intros [= -> ->]; auto]. Qed.
Fixpoint nodup_pairs (l : list (nat * nat)) : bool := match l with [] => true | p :: l => negb (existsb (pair_eqb p) l) && nodup_pairs l end.
Lemma nodup_pairs_ok l : nodup_pairs l = true -> NoDup l.
Proof.
  induction l as [|p l IH]; cbn; [constructor|]. rewrite andb_true_iff, negb_true_iff. intros [A B]. constructor; auto. intros I.
  assert (existsb (pair_eqb p) l = true); [|congruence]. apply existsb_exists. exists p. split; auto. apply pair_eqb_ok. auto.
Qed.
Definition apartb (zs : list (Z * Z)) (D : list (nat * nat * nat)) : bool :=
  let E := flat_map (@tri_edges nat) D in
  forallb (fun t => forallb (fun s => match s with (v, x, y) =>
    forallb (fun p => forallb (fun q => match q with (w, d) =>
      implb ((w =? v) && (0 <=? zccw (zspot zs v) (zspot zs x) (zspot zs d))%Z && (0 <=? zccw (zspot zs v) (zspot zs d) (zspot zs y))%Z) ((d =? x) || (d =? y)) end)
      [p; (snd p, fst p)]) E end) (rots t)) D.
Definition constrainedb (zs : list (Z * Z)) (D : list (nat * nat * nat)) : bool :=
  forallb (fun t => match t with (a, b, c) => (a <? length zs) && (b <? length zs) && (c <? length zs) && (0 <? zccw (zspot zs a) (zspot zs b) (zspot zs c))%Z end) D &&
  nodup_pairs (flat_map (@tri_edges nat) D) && apartb zs D.
Lemma constrainedb_ok zs D keep : constrainedb zs D = true -> triangulates (seq 0 (length zs)) (filter keep D) -> constrained (map real2 zs) D.
Proof.
  unfold constrainedb. rewrite !andb_true_iff. intros [[A B] C] K. rewrite forallb_forall in A.
  constructor.
  - intros a b c I. specialize (A _ I). cbv beta iota in A. rewrite !andb_true_iff, !Nat.ltb_lt in A. rewrite map_length. tauto.
  - intros a b c I. specialize (A _ I). cbv beta iota in A. rewrite !andb_true_iff, Z.ltb_lt in A. rewrite ccw_real. apply IZR_lt. tauto.
  - apply nodup_pairs_ok. auto.
  - intros t v x y d I S E P Q. rewrite ccw_real in P, Q. apply le_IZR in P. apply le_IZR in Q.
    unfold apartb in C. rewrite forallb_forall in C. specialize (C _ I). cbv beta in C. rewrite forallb_forall in C. specialize (C _ (seen_rots S)). cbv beta iota in C.
    rewrite forallb_forall in C. apply Z.leb_le in P. apply Z.leb_le in Q. destruct E as [E|E]; specialize (C _ E); cbn [forallb fst snd] in C; rewrite Nat.eqb_refl, P, Q in C; cbn [andb implb] in C;
      rewrite ?andb_true_iff in C; apply Nat.eqb_eq || idtac.
    + destruct C as [C _]. apply orb_true_iff in C as [C|C]; apply Nat.eqb_eq in C; auto.
    + destruct C as (_ & C & _). apply orb_true_iff in C as [C|C]; apply Nat.eqb_eq in C; auto.
  - exists keep. rewrite map_length. exact K.
Qed.
Section Alone.
  Context {VP EP FP : Type}.
  Definition aloneb (m : mesh VP EP FP) (f : nat) (l : list nat) : bool :=
    nodupb l && forallb (fun e => implb (lv (abs m) e && inb (og (abs m) e) l && inb (og (abs m) (tw (abs m) e)) l) (oeqb (fc (abs m) e) (Some f) || oeqb (fc (abs m) (tw (abs m) e)) (Some f))) (ids_below m).
  Lemma aloneb_ok m f l : aloneb m f l = true -> alone (abs m) f l.
  Proof.
    unfold aloneb. rewrite andb_true_iff. intros [N H]. split; [apply nodupb_ok; auto|]. rewrite forallb_forall in H. intros e L A B. specialize (H e (live_below _ _ L)). cbv beta in H.
    apply inb_in in A. apply inb_in in B. rewrite L, A, B in H. cbn [andb implb] in H. apply orb_true_iff in H.
    assert (O : forall o : option nat, oeqb o (Some f) = true -> o = Some f) by (intros [k|] Q; cbn in Q; [apply Nat.eqb_eq in Q; congruence|discriminate]).
    destruct H; auto.
  Qed.
End Alone.
Lemma boundary_by {VP EP FP : Type} (m : mesh VP EP FP) f l : wf m -> lvf (abs m) f = true -> face_vertices m f = Ok l -> boundary_vertices (abs m) f l.
Proof. intros Wm LF E. destruct (boundary_exists Wm LF) as (k & B). pose proof (boundary_face_vertices Wm LF B). congruence. Qed.

(** ** A star with three points *)
Definition star6 : mesh nat nat nat := get_ok empty_mesh (let* (m, _) := insert_polygon 0 7 c0 empty_mesh [0; 10; 20; 30; 40; 50] in Ok m).
Definition star_pts : list (Z * Z) := [(10, 0); (1, 2); (-5, 9); (-2, 0); (-5, -9); (1, -2)]%Z.
Definition star_us : list (R * R * nat) := combine (map real2 star_pts) [0; 5; 4; 3; 2; 1].
Definition star_D : list (nat * nat * nat) := [(0, 1, 5); (2, 1, 0); (1, 3, 5); (4, 3, 2); (1, 2, 3); (5, 4, 0); (3, 4, 5)].
Definition star_keep (t : nat * nat * nat) : bool := match t with (a, _, c) => a <? c end.
Lemma star_inside : triangulates (seq 0 6) (filter star_keep star_D).
Proof.
  exists 0, [1; 2; 3; 4], 5. split; [reflexivity|]. apply (@tri_node _ 0 [] 1 [2; 3; 4] 5 [] [(1, 3, 5); (1, 2, 3); (3, 4, 5)]); [constructor|].
  apply (@tri_node _ 1 [2] 3 [4] 5 [(1, 2, 3)] [(3, 4, 5)]).
  - apply (@tri_node _ 1 [] 2 [] 3 [] []); constructor.
  - apply (@tri_node _ 3 [] 4 [] 5 [] []); constructor.
Qed.
Lemma star_constrained : constrained (map real2 star_pts) star_D.
Proof. apply constrainedb_ok with (keep := star_keep); [vm_compute; reflexivity|exact star_inside]. Qed.
Lemma star_mesh : wf star6 /\ lvf (abs star6) 0 = true /\ boundary_vertices (abs star6) 0 [0; 5; 4; 3; 2; 1] /\ alone (abs star6) 0 [0; 5; 4; 3; 2; 1].
Proof.
  assert (Wm : wf star6) by (apply wfb_ok; vm_compute; reflexivity). assert (L : lvf (abs star6) 0 = true) by (vm_compute; reflexivity).
  split; [exact Wm|]. split; [exact L|]. split; [apply boundary_by; [exact Wm|exact L|vm_compute; reflexivity]|]. apply aloneb_ok. vm_compute. reflexivity.
Qed.

(** ** A polygon with seven corners; two of them are also joined on the other side *)
Definition chord7 : mesh nat nat nat := get_ok empty_mesh
  (let* (m, _) := insert_polygon 0 7 c0 empty_mesh [0; 10; 20; 30; 40; 50; 60] in
   let* (m1, _, _, _) := close_face c0 m 13 0 6 0 7 false in
   let* (m2, _) := close_hole c0 m1 0 7 false in Ok m2).
Definition chord_l := [0; 6; 5; 4; 3; 2; 1].
Definition chord_pts : list (Z * Z) := [(5, 0); (4, 3); (3, 4); (0, 5); (-4, 3); (-4, -3); (0, -5)]%Z.
Definition chord_us : list (R * R * nat) := combine (map real2 chord_pts) chord_l.
Definition chord_D : list (nat * nat * nat) := [(0, 5, 6); (0, 3, 5); (0, 2, 3); (0, 1, 2); (3, 4, 5)].
Lemma chord_inside : triangulates (seq 0 7) chord_D.
Proof.
  exists 0, [1; 2; 3; 4; 5], 6. split; [reflexivity|]. apply (@tri_node _ 0 [1; 2; 3; 4] 5 [] 6 [(0, 3, 5); (0, 2, 3); (0, 1, 2); (3, 4, 5)] []); [|constructor].
  apply (@tri_node _ 0 [1; 2] 3 [4] 5 [(0, 2, 3); (0, 1, 2)] [(3, 4, 5)]).
  - apply (@tri_node _ 0 [1] 2 [] 3 [(0, 1, 2)] []); [|constructor]. apply (@tri_node _ 0 [] 1 [] 2 [] []); constructor.
  - apply (@tri_node _ 3 [] 4 [] 5 [] []); constructor.
Qed.
Definition chord_T : list (nat * nat * nat) := [(0, 2, 1); (0, 5, 4); (0, 6, 5); (4, 3, 2)].
Lemma chord_fold c eps : foldM (fun out t => let* o := choose c eps chord7 0 chord_us t in Ok (match o with Some x => out ++ [x] | None => out end)) chord_D [] = Ok chord_T.
Proof. destruct c as [? ? ? []]; vm_compute; reflexivity. Qed.
Lemma chord_drops : exists (m : mesh nat nat nat) us D T, wf m /\ closed (abs m) /\ no_parallel (abs m) /\ lvf (abs m) 0 = true /\
  boundary_vertices (abs m) 0 (map snd us) /\ NoDup (map snd us) /\ spread 1 (map fst us) /\ constrained (map fst us) D /\
  (forall c eps before after, (dbg c = true -> before 0 = true /\ after T = true) -> delaunay_triangulation c eps (fun _ => Ok D) before after m 0 us = Ok T) /\
  (forall v, In v (map snd us) -> exists t, In t T /\ In v (flatten [t])) /\ length T + 3 = length us /\ ~ triangulates (map snd us) T /\ ~ covers (map snd us) T.
Proof.
  assert (Wm : wf chord7) by (apply wfb_ok; vm_compute; reflexivity). assert (L : lvf (abs chord7) 0 = true) by (vm_compute; reflexivity).
  assert (MS : map snd chord_us = chord_l) by reflexivity. assert (MF : map fst chord_us = map real2 chord_pts) by reflexivity.
  exists chord7, chord_us, chord_D, chord_T. rewrite MS, MF.
  split; [exact Wm|]. split; [apply closedb_ok; vm_compute; reflexivity|]. split; [apply no_parallelb_ok; vm_compute; reflexivity|]. split; [exact L|].
  split; [apply boundary_by; [exact Wm|exact L|vm_compute; reflexivity]|]. split; [apply nodupb_ok; vm_compute; reflexivity|].
  split; [apply spreadb_ok; [vm_compute; reflexivity|lra]|].
  split. { apply constrainedb_ok with (keep := fun _ => true); [vm_compute; reflexivity|exact chord_inside]. }
  split.
  { intros c eps before after G. unfold delaunay_triangulation. assert (A : negb (dbg c) || before 0 = true) by (destruct (dbg c); cbn; auto; apply G; auto).
    assert (B : negb (dbg c) || after chord_T = true) by (destruct (dbg c); cbn; auto; apply G; auto). rewrite A. cbn [assert bind].
    rewrite (chord_fold c eps). cbn [bind]. rewrite B. reflexivity. }
  split.
  { intros v I. assert (F : forallb (fun v => existsb (fun t => inb v (flatten [t])) chord_T) chord_l = true) by (vm_compute; reflexivity).
    rewrite forallb_forall in F. specialize (F v I). apply existsb_exists in F as (t & I1 & I2). exists t. split; [exact I1|]. apply inb_in. exact I2. }
  split; [reflexivity|].
  assert (NC : ~ covers chord_l chord_T) by (intros H; specialize (H 0 4); vm_compute in H; discriminate H).
  split; [|exact NC]. intros H. apply NC. apply triangulates_facts. exact H.
Qed.

(** the star as a mesh: its only face meets the conditions *)
Definition star_pos (f : nat) : option (nat -> rvec2) := Some (fun v => real2 (nth v [(10, 0); (1, -2); (-5, -9); (-2, 0); (-5, 9); (1, 2)]%Z (0, 0)%Z)).
Lemma star_faces : forall f l p, lvf (abs star6) f = true -> boundary_vertices (abs star6) f l -> star_pos f = Some p -> 3 <= length l ->
  alone (abs star6) f l /\ spread 1 (map p l) /\ forall D, Ok star_D = Ok D -> constrained (map p l) D.
Proof.
  destruct star_mesh as (Wm & L & B & AL). intros f l p LF BV E _.
  assert (f = 0) as ->. { assert (H : forallb (fun f => implb (lvf (abs star6) f) (f =? 0)) (seq 0 (length (slots (faces star6)))) = true) by (vm_compute; reflexivity).
    rewrite forallb_forall in H. assert (I : In f (seq 0 (length (slots (faces star6))))).
    { apply in_seq. split; [lia|]. unfold abs in LF. cbn [lvf] in LF. unfold d_has in LF. apply nth_error_Some. destruct (nth_error _ f); congruence. }
    specialize (H f I). cbv beta in H. rewrite LF in H. apply Nat.eqb_eq. exact H. }
  assert (l = [0; 5; 4; 3; 2; 1]) as ->. { pose proof (boundary_face_vertices Wm L BV) as X. pose proof (boundary_face_vertices Wm L B) as Y. congruence. }
  injection E as <-. split; [exact AL|].
  split; [apply (@spreadb_ok star_pts); [vm_compute; reflexivity|lra]|]. intros D [= <-]. exact star_constrained.
Qed.
