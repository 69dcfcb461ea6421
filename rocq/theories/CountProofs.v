(** Numbers of vertices, edges and faces of the solids; the degree of an apex. *)
From Coq Require Import List Arith Lia Bool Permutation.
From Verif Require Import Base DVec DVecFacts Mesh Spec Rep Splice Cycle Traverse Room Ops MeshSpec MeshProofs
  MeshMore MeshTotal TopoSpec BuildSpec Solid SolidSpec BuildStep PathProofs ApexProofs LoftProofs
  TriProofs PartProofs SolidProofs ShapeProofs SphereProofs.
Import ListNotations.
Set Implicit Arguments.
Unset Strict Implicit.

Local Arguments abs : simpl never.

Lemma stack_length A (R : list (list A)) k : (forall r, In r R -> length r = k) -> length (stack R) = (length R - 1) * k.
Proof.
  induction R as [|r [|s R] IH]; intros H; auto.
  change (stack (r :: s :: R)) with (quads (turn r) (turn s) ++ stack (s :: R)). rewrite app_length, IH by (intros; apply H; right; auto).
  rewrite quads_length; rewrite !turn_length; rewrite (H r) by (left; auto); [|rewrite (H s) by (right; left; auto); auto].
  cbn [length]. rewrite !Nat.sub_succ, !Nat.sub_0_r. cbn. auto.
Qed.

Section Counts.
  Context {VP EP FP : Type}.
  Notation graph := (graph VP EP FP).
  Notation mesh := (mesh VP EP FP).
  Implicit Types (g : graph) (m : mesh).
  Variable (dE : EP) (dF : FP).
  Notation fits := (@fits VP EP FP).

  Lemma fan_spokes g v y : forall es ps fs, fan g v y es ps fs ->
    forall p, In p (removelast ps) -> exists e, In e es /\ leads g p (og g e) v.
  Proof.
    induction es as [|e es IH]; intros ps fs H; [destruct ps as [|p [|q ps]], fs; cbn in H; try contradiction; intros p' []|].
    destruct ps as [|p [|q ps]], fs as [|f fs]; cbn [fan] in H; try contradiction. destruct H as (A & _ & H). intros p' I. cbn [removelast] in I. destruct I as [<-|I].
    - exists e. split; [left|]; auto.
    - destruct (IH _ _ H p' I) as (e' & I' & L). exists e'. split; [right|]; auto.
  Qed.

  Lemma apex_degree m m' L v x y ps fs : wf m -> wf m' -> hole (abs m) L -> length ps = length L ->
    apex_built (abs m) (abs m') L v x y ps fs -> out_number (abs m') v (length L).
  Proof.
    intros Wm Wm' H LP AP. pose proof (wfW Wm) as W. pose proof (wfW Wm') as W'. pose proof (ab_grown AP) as G.
    destruct (gr_e G) as (ND & FR & LV). apply nd_app_inv in ND as (_ & ND & _).
    destruct (gr_v G) as (_ & FV & _). assert (V0 : lvv (abs m) v = false) by (apply FV; left; auto).
    assert (SP : forall p, In p ps -> exists e, In e L /\ leads (abs m') p (og (abs m') e) v).
    { intros p I. apply (fan_spokes (ab_fan AP)). destruct ps as [|p0 ps]; [destruct I|]. cbn [firstn]. rewrite removelast_last. auto. }
    assert (OO : forall e, In e L -> og (abs m') e <> v).
    { intros e I Q. assert (Le : lv (abs m) e = true) by (apply (proj1 (proj1 H)); auto).
      rewrite (proj1 (proj2 (gr_old_e G Le))) in Q. pose proof (wf_og W _ Le) as Q'. rewrite Q in Q'. rewrite Q' in V0. discriminate. }
    exists (map (tw (abs m')) ps). split; auto. split; [rewrite map_length; auto|]. intros z. split.
    - intros I. apply in_map_iff in I as (p & <- & I). destruct (SP p I) as (e & _ & Lp & _ & T). split; [apply (wf_tw W' _ Lp)|exact T].
    - intros [Lz Oz]. apply LV in Lz as [Lz|Lz].
      + rewrite (proj1 (proj2 (gr_old_e G Lz))) in Oz. pose proof (wf_og W _ Lz) as Q. rewrite Oz in Q. rewrite Q in V0. discriminate.
      + apply in_app_iff in Lz as [Lz|Lz]; auto. destruct (SP z Lz) as (e & I & _ & O & _). exfalso. apply (OO e I). rewrite <- O. auto.
  Qed.

  Lemma apex_total c m start t y a b d : wf m -> let L := start :: t in
    hole (abs m) L -> NoDup (map (og (abs m)) L) -> fits c m (2 * length L + a) (S b) (length L + d) ->
    exists m' v ps fs, fill_hole_apex dE dF c m start y = Ok (m', v) /\ wf m' /\ fits c m' a b d /\
      length ps = length L /\ apex_built (abs m) (abs m') L v y dF ps fs /\ out_number (abs m') v (length L).
  Proof.
    intros Wm L H N F. destruct (fill_hole_apex_total dE dF y Wm H N F) as (m' & v & ps & fs & E & Wm' & F' & LP & AP).
    exists m', v, ps, fs. do 5 (split; auto). exact (apex_degree Wm Wm' H LP AP).
  Qed.

  Lemma path_total c m y0 y1 rest a b d : wf m ->
    let n := length (y0 :: y1 :: rest) in
    fits c m (2 * (n - 1) + a) (n + b) d ->
    exists m' es vs, insert_path dE c m (y0 :: y1 :: rest) =
        Ok (m', tw (abs m') (hd 0 es), last es 0) /\ wf m' /\ fits c m' a b d /\
      path_built (abs m) (abs m') es vs (y0 :: y1 :: rest).
  Proof.
    intros Wm n F. destruct (@insert_path_total _ _ _ dE c m y0 y1 rest a b d Wm F) as (m' & es & vs & E & Wm' & F' & P & _). eauto 10.
  Qed.

  Lemma dihedron_wrong c m y0 y1 y2 rest a b d : wf m -> dbg c = true ->
    let ys := y0 :: y1 :: y2 :: rest in let n := length ys in
    fits c m (2 * n + a) (n + b) (2 + d) -> insert_dihedron dE dF c m ys = Panic.
  Proof. intros Wm D ys n F. eapply insert_dihedron_panics; eauto. Qed.

  (** * numbers *)
  Lemma pyramid_counts m (ys : list VP) x : wf m -> solid (abs m) dF (ys ++ [x]) (pyramid_polys (length ys)) (2 * length ys) ->
    num_vertices m = S (length ys) /\ num_edges m = 2 * (2 * length ys) /\ num_faces m = S (length ys).
  Proof.
    intros Wm S. destruct (solid_counts Wm S) as (A & B & C). rewrite A, B, C. rewrite app_length. unfold pyramid_polys. cbn [length].
    rewrite fans_length, seq_length. repeat split; lia.
  Qed.

  Lemma frustum_counts m (ys xs : list VP) : wf m -> length xs = length ys -> solid (abs m) dF (ys ++ xs) (frustum_polys (length ys)) (3 * length ys) ->
    num_vertices m = 2 * length ys /\ num_edges m = 2 * (3 * length ys) /\ num_faces m = 2 + length ys.
  Proof.
    intros Wm LX S. destruct (solid_counts Wm S) as (A & B & C). rewrite A, B, C. rewrite app_length. unfold frustum_polys. cbn [length].
    rewrite app_length, quads_length; rewrite ?seq_length; auto. cbn. lia.
  Qed.

  Lemma antiprism_counts m (ys xs : list VP) : wf m -> length xs = length ys -> solid (abs m) dF (ys ++ xs) (antiprism_polys (length ys)) (4 * length ys) ->
    num_vertices m = 2 * length ys /\ num_edges m = 2 * (4 * length ys) /\ num_faces m = 2 + 2 * length ys.
  Proof.
    intros Wm LX S. destruct (solid_counts Wm S) as (A & B & C). rewrite A, B, C. rewrite app_length. unfold antiprism_polys. cbn [length].
    rewrite !app_length, stands_length; rewrite ?hangs_length; rewrite ?seq_length; auto. cbn. lia.
  Qed.

  Lemma bipyramid_counts m (ys : list VP) x x' : wf m -> solid (abs m) dF (ys ++ [x; x']) (bipyramid_polys (length ys)) (3 * length ys) ->
    num_vertices m = 2 + length ys /\ num_edges m = 2 * (3 * length ys) /\ num_faces m = 2 * length ys.
  Proof.
    intros Wm S. destruct (solid_counts Wm S) as (A & B & C). rewrite A, B, C. rewrite app_length. unfold bipyramid_polys.
    rewrite app_length, !fans_length, turn_length, !seq_length. cbn. lia.
  Qed.

  Lemma sphere_counts m (vp0 : nat -> nat -> VP) n k : wf m -> 2 <= n ->
    solid (abs m) dF (sphere_points vp0 n k) (sphere_polys n k) ((2 * n - 1) * k) ->
    num_vertices m = 2 + (n - 1) * k /\ num_edges m = 2 * ((2 * n - 1) * k) /\ num_faces m = n * k.
  Proof.
    intros Wm N S. destruct (solid_counts Wm S) as (A & B & C). rewrite A, B, C. unfold sphere_points, sphere_polys.
    cbn [length]. rewrite !app_length, !fans_length, turn_length. unfold sphere_ring at 1 3. rewrite !seq_length.
    rewrite (@stack_length _ _ k).
    2:{ intros r I. apply in_map_iff in I as (i & <- & _). unfold sphere_ring. apply seq_length. }
    rewrite map_length, seq_length.
    assert (Q : forall j i, length (concat (map (fun i => map (vp0 i) (seq 0 k)) (seq i j))) = j * k).
    { induction j as [|j IH]; intros i; auto. cbn [seq map concat]. rewrite app_length, IH, map_length, seq_length. lia. }
    rewrite Q. cbn [length]. repeat split; nia.
  Qed.

  Lemma icosa_counts m (xs ys : list VP) t b : wf m -> length ys = length xs ->
    solid (abs m) dF (xs ++ [t] ++ ys ++ [b]) (icosa_polys (length xs)) (6 * length xs) ->
    num_vertices m = 2 + 2 * length xs /\ num_edges m = 2 * (6 * length xs) /\ num_faces m = 4 * length xs.
  Proof.
    intros Wm LX S. destruct (solid_counts Wm S) as (A & B & C). rewrite A, B, C. unfold icosa_polys.
    rewrite !app_length, !fans_length, turn_length, stands_length, hangs_length; rewrite ?seq_length; auto. cbn. lia.
  Qed.
End Counts.
