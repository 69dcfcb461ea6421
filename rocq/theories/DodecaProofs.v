(** The dodecahedron: what the code does and what it was meant to do. *)
From Coq Require Import List Arith Lia Bool Reals Lra Psatz.
From Verif Require Import Base DVec Mesh Spec MeshSpec MeshMore MeshEx BuildSpec Solid Sphere SphereSpec SolidSpec PlatonicProofs RegularSpec RegularPlato Dodeca DodecaSpec.
Import ListNotations.
Set Implicit Arguments.
Unset Strict Implicit.
Local Arguments abs : simpl never.

Lemma exactly_seq {A} (d : dvec A) n : length (slots d) = n -> all_below n (d_has d) = true -> exactly (d_has d) (seq 0 n).
Proof.
  intros L B. split; [apply seq_NoDup|]. intros x. split; [intros H; apply has_lt in H; apply in_seq; lia|].
  intros I. apply in_seq in I. apply (all_below_ok B). lia.
Qed.
(** the half-edges of a face, [n] steps from the stored one *)
Definition around {VP EP FP} (g : graph VP EP FP) (n f : nat) : list nat := map (fun i => Nat.iter i (nx g) (fe g f)) (seq 0 n).
Definition polyb {VP EP FP} (g : graph VP EP FP) (f : nat) (l : list nat) : bool :=
  lvf g f && loopb g (around g (length l) f) && forallb (fun e => oeqb (fc g e) (Some f)) (around g (length l) f) &&
  forallb (fun p => fst p =? snd p) (combine (map (og g) (around g (length l) f)) l).
Lemma pairs_eq (l1 : list nat) : forall l2, length l1 = length l2 -> forallb (fun p => fst p =? snd p) (combine l1 l2) = true -> l1 = l2.
Proof.
  induction l1 as [|a l1 IH]; intros [|b l2] L H; try discriminate; auto. cbn in *. apply andb_true_iff in H as [E H].
  apply Nat.eqb_eq in E. f_equal; auto.
Qed.
Lemma polyb_ok {VP EP FP} (g : graph VP EP FP) y f l : polyb g f l = true -> fp g f = Some (false, y) -> poly g y f l.
Proof.
  unfold polyb. rewrite !andb_true_iff, forallb_forall. intros [[[A B] C] D] F. exists (around g (length l) f). split.
  - split; auto. split; auto. split; [apply loopb_ok; auto|]. intros x I. apply oeqb_true, C. exact I.
  - apply pairs_eq; auto. unfold around. rewrite !map_length, seq_length. auto.
Qed.
Fixpoint polysb {VP EP FP} (g : graph VP EP FP) (fs : list nat) (ls : list (list nat)) : bool :=
  match fs, ls with [], [] => true | f :: fs, l :: ls => polyb g f l && polysb g fs ls | _, _ => false end.
Lemma polysb_ok {VP EP FP} (g : graph VP EP FP) y : forall fs ls, polysb g fs ls = true ->
  (forall f, In f fs -> fp g f = Some (false, y)) -> Forall2 (poly g y) fs ls.
Proof.
  induction fs as [|f fs IH]; intros [|l ls] H F; try discriminate; constructor; cbn in H; apply andb_true_iff in H as [H1 H2].
  - apply polyb_ok; auto. apply F. left; auto.
  - apply IH; auto. intros; apply F; right; auto.
Qed.

Section DodecaMesh.
  Context {VP EP FP : Type}.
  Variable (dE : EP) (dF : FP).
  Implicit Types (m : mesh VP EP FP).

  Definition solid12 m : bool :=
    wfb m && (length (slots (verts m)) =? 20) && (length (slots (faces m)) =? 12) && (length (slots (edges m)) =? 60) &&
    all_below 20 (d_has (verts m)) && all_below 12 (d_has (faces m)) && all_below 60 (d_has (edges m)) &&
    polysb (abs m) (seq 0 12) dodeca_polys && all_below 60 (fun e => negb (is_none (fc (abs m) e))).
  Lemma solid12_ok m pts : solid12 m = true -> map (fp (abs m)) (seq 0 12) = repeat (Some (false, dF)) 12 ->
    map (vp (abs m)) (seq 0 20) = map Some pts -> wf m /\ solid (abs m) dF pts dodeca_polys 30.
  Proof.
    unfold solid12. rewrite !andb_true_iff, !Nat.eqb_eq. intros [[[[[[[[W LV] LF] LE] AV] AF] AE] PB] B] HF HV.
    split; [apply wfb_ok; auto|]. exists (seq 0 20), (seq 0 12), (seq 0 60).
    split; [apply (exactly_seq LV AV)|]. split; [auto|]. split; [apply (exactly_seq LF AF)|].
    split.
    { change (map (map (fun i => nth i (seq 0 20) 0)) dodeca_polys) with dodeca_polys. apply polysb_ok; auto.
      intros f I. assert (J : In (fp (abs m) f) (repeat (Some (false, dF)) 12)) by (rewrite <- HF; apply in_map; auto).
      apply repeat_spec in J. auto. }
    pose proof (exactly_seq LE AE) as X. split; [exact X|]. split; [reflexivity|].
    intros e L Q. apply X, in_seq in L. pose proof (all_below_ok B (i := e) ltac:(lia)) as Z. cbv beta in Z. rewrite Q in Z. discriminate.
  Qed.

  Variables (x0 x1 x2 x3 x4 x5 x6 x7 x8 x9 x10 x11 x12 x13 x14 x15 x16 x17 x18 x19 : VP).
  Let top := [x0; x1; x2; x3; x4].
  Let mid := [x5; x6; x7; x8; x9; x10; x11; x12; x13; x14].
  Let bottom := [x15; x16; x17; x18; x19].

  Lemma room c : 60 <= capE c -> 20 <= capV c -> 12 <= capF c -> exists a b d, c = mkCfg (60 + a) (20 + b) (12 + d) (dbg c).
  Proof.
    intros A B D. exists (capE c - 60), (capV c - 20), (capF c - 12). destruct c as [e v f g]. cbn [capE capV capF dbg] in *.
    f_equal; lia.
  Qed.

  (** the intended start edge, from the first to the second corner *)
  Lemma dodeca_good c : 60 <= capE c -> 20 <= capV c -> 12 <= capF c ->
    exists m, dodeca_mesh dE dF c 0 1 top mid bottom = Ok m /\ wf m /\ solid (abs m) dF (top ++ mid ++ bottom) dodeca_polys 30.
  Proof.
    intros A B D. destruct (room A B D) as (a & b & d & ->). clear A B D. destruct (dbg c).
    1: set (q := true). 2: set (q := false).
    all: assert (X : match dodeca_mesh dE dF (mkCfg (60 + a) (20 + b) (12 + d) q) 0 1 top mid bottom with
           | Ok m => solid12 m = true /\ map (fp (abs m)) (seq 0 12) = repeat (Some (false, dF)) 12 /\
                     map (vp (abs m)) (seq 0 20) = map Some (top ++ mid ++ bottom)
           | _ => False end) by (vm_compute; split; [|split]; reflexivity).
    all: destruct (dodeca_mesh dE dF (mkCfg (60 + a) (20 + b) (12 + d) q) 0 1 top mid bottom) as [m| |]; try tauto.
    all: exists m; split; [reflexivity|]; destruct X as (X1 & X2 & X3); apply solid12_ok; auto.
  Qed.

  (** the start edge of the code, in a debug build *)
  Lemma dodeca_debug c : 60 <= capE c -> 20 <= capV c -> 12 <= capF c -> dbg c = true ->
    dodeca_mesh dE dF c 1 0 top mid bottom = Panic.
  Proof. intros A B D G. destruct (room A B D) as (a & b & d & ->). rewrite G. vm_compute. reflexivity. Qed.

  (** and without debug assertions: the first two faces have the same boundary, the first pentagon is a hole *)
  Lemma dodeca_release c : 60 <= capE c -> 20 <= capV c -> 12 <= capF c -> dbg c = false ->
    exists m, dodeca_mesh dE dF c 1 0 top mid bottom = Ok m /\ ~ wf m /\ num_faces m = 12 /\ num_vertices m = 20 /\
      (exists h, hole (abs m) h /\ map (fun e => vp (abs m) (og (abs m) e)) h = map Some top) /\
      exists f1 f2, f1 <> f2 /\ lvf (abs m) f1 = true /\ lvf (abs m) f2 = true /\ reach (nx (abs m)) (fe (abs m) f1) (fe (abs m) f2).
  Proof.
    intros A B D G. destruct (room A B D) as (a & b & d & ->). rewrite G. clear A B D G.
    assert (X : match dodeca_mesh dE dF (mkCfg (60 + a) (20 + b) (12 + d) false) 1 0 top mid bottom with
           | Ok m => num_faces m = 12 /\ num_vertices m = 20 /\ lvf (abs m) 0 = true /\ lvf (abs m) 1 = true /\ fc (abs m) (fe (abs m) 0) = Some 1 /\
               Nat.iter 2 (nx (abs m)) (fe (abs m) 0) = fe (abs m) 1 /\ loopb (abs m) [0; 2; 4; 6; 9] = true /\ map (fc (abs m)) [0; 2; 4; 6; 9] = repeat None 5 /\
               map (fun e => vp (abs m) (og (abs m) e)) [0; 2; 4; 6; 9] = map Some top
           | _ => False end) by (vm_compute; repeat (split; [reflexivity|]); reflexivity).
    destruct (dodeca_mesh dE dF (mkCfg (60 + a) (20 + b) (12 + d) false) 1 0 top mid bottom) as [m| |]; try tauto.
    destruct X as (NF & NV & L0 & L1 & FC & RE & LP & FN & PT). exists m. split; [reflexivity|].
    split.
    { intros (_ & _ & _ & W). pose proof (wf_fe W _ L0) as Q. destruct Q as [_ Q]. rewrite FC in Q. discriminate. }
    split; auto. split; auto. split.
    - exists [0; 2; 4; 6; 9]. split; auto. split; [apply loopb_ok; auto|]. intros x I.
      assert (J : In (fc (abs m) x) (repeat None 5)) by (rewrite <- FN; apply in_map; auto). apply repeat_spec in J. auto.
    - exists 0, 1. split; [discriminate|]. split; auto. split; auto. rewrite <- RE. apply reach_iter. exists 2. reflexivity.
  Qed.
End DodecaMesh.

(** ** positions *)
Local Open Scope R_scope.
Definition dodeca_list (p s r : R) : list vec3 :=
  [(0, p, s); (r, r, r); (s, 0, p); (- s, 0, p); (- r, r, r);
   (p, s, 0); (r, r, - r); (0, p, - s); (- r, r, - r); (- p, s, 0); (- p, - s, 0); (- r, - r, r); (0, - p, s); (r, - r, r); (p, - s, 0);
   (r, - r, - r); (s, 0, - p); (- s, 0, - p); (- r, - r, - r); (0, - p, - s)].
Lemma dodeca_law r : 0 < r -> let s := r / golden in r * golden = r + s /\ 0 < s /\ 8 * s < 5 * r /\ 8 * r < 13 * s /\ r * r = r * s + s * s.
Proof.
  intros H s. destruct sqrt5 as [Q [A B]]. assert (G : 0 < golden) by (unfold golden; lra).
  assert (GG : golden * golden = golden + 1) by (unfold golden; nra).
  assert (E : r = s * golden) by (unfold s; field; lra). assert (S : 0 < s) by (unfold s; apply Rdiv_lt_0_compat; auto).
  assert (22 < 10 * sqrt 5) by nra. assert (4 * sqrt 5 < 9) by nra.
  clearbody s. subst r. split; [rewrite Rmult_assoc, GG; ring|]. split; auto.
  split; [unfold golden; nra|]. split; [unfold golden; nra|].
  replace (s * golden * (s * golden)) with (s * s * (golden * golden)) by ring. rewrite GG. ring.
Qed.
Lemma dodeca_points_list r : dodeca_points r = dodeca_list (r * golden) (r / golden) r.
Proof. reflexivity. Qed.

(** Numbers [a + b * golden] with integers [a] and [b]: computing signs. *)
Definition ev (x : Z * Z) : R := IZR (fst x) + IZR (snd x) * golden.
Definition za (x y : Z * Z) : Z * Z := (fst x + fst y, snd x + snd y)%Z.
Definition zs (x y : Z * Z) : Z * Z := (fst x - fst y, snd x - snd y)%Z.
Definition zm (x y : Z * Z) : Z * Z := (fst x * fst y + snd x * snd y, fst x * snd y + snd x * fst y + snd x * snd y)%Z.
Definition zpos (x : Z * Z) : bool := if Z.leb 0 (snd x) then Z.ltb 0 (5 * fst x + 8 * snd x) else Z.ltb 0 (8 * fst x + 13 * snd x).
Definition zeq (x y : Z * Z) : bool := Z.eqb (fst x) (fst y) && Z.eqb (snd x) (snd y).
Notation zv := ((Z * Z) * (Z * Z) * (Z * Z))%type.
Definition vz (s : R) (u : zv) : vec3 := let '(x, y, z) := u in (s * ev x, s * ev y, s * ev z).
Definition zvadd (u w : zv) : zv := let '(a, b, d) := u in let '(x, y, z) := w in (za a x, za b y, za d z).
Definition zvsub (u w : zv) : zv := let '(a, b, d) := u in let '(x, y, z) := w in (zs a x, zs b y, zs d z).
Definition zdot (u w : zv) : Z * Z := let '(a, b, d) := u in let '(x, y, z) := w in za (zm a x) (za (zm b y) (zm d z)).
Definition zcross (u w : zv) : zv := let '(a, b, d) := u in let '(x, y, z) := w in
  (zs (zm b z) (zm d y), zs (zm d x) (zm a z), zs (zm a y) (zm b x)).
Definition z0 : zv := ((0, 0), (0, 0), (0, 0))%Z.
Lemma gg : golden * golden = golden + 1.
Proof. destruct sqrt5 as [Q _]. unfold golden. nra. Qed.
Lemma ev_a x y : ev (za x y) = ev x + ev y.
Proof. unfold ev, za. cbn [fst snd]. rewrite !plus_IZR. ring. Qed.
Lemma ev_s x y : ev (zs x y) = ev x - ev y.
Proof. unfold ev, zs. cbn [fst snd]. rewrite !minus_IZR. ring. Qed.
Lemma ev_m x y : ev (zm x y) = ev x * ev y.
Proof.
  unfold ev, zm. cbn [fst snd]. rewrite !plus_IZR, !mult_IZR. pose proof gg as G. 
  transitivity (IZR (fst x) * IZR (fst y) + (IZR (fst x) * IZR (snd y) + IZR (snd x) * IZR (fst y)) * golden + IZR (snd x) * IZR (snd y) * (golden * golden)); [rewrite G|]; ring.
Qed.
Lemma ev_pos x : zpos x = true -> 0 < ev x.
Proof.
  destruct x as [a b]. unfold zpos, ev. cbn [fst snd]. destruct sqrt5 as [Q [A B]].
  assert (22 < 10 * sqrt 5) by nra. assert (4 * sqrt 5 < 9) by nra. assert (L : 8 / 5 < golden) by (unfold golden; lra). assert (U : golden < 13 / 8) by (unfold golden; lra).
  destruct (Z.leb_spec 0 b) as [H1|H1]; intros P; apply Z.ltb_lt in P; apply IZR_lt in P; rewrite plus_IZR, !mult_IZR in P.
  - apply IZR_le in H1. assert (IZR b * (8 / 5) <= IZR b * golden) by (apply Rmult_le_compat_l; lra). lra.
  - apply IZR_lt in H1. assert (- IZR b * golden <= - IZR b * (13 / 8)) by (apply Rmult_le_compat_l; lra). lra.
Qed.
Lemma ev_eq x y : zeq x y = true -> ev x = ev y.
Proof. unfold zeq, ev. rewrite andb_true_iff, !Z.eqb_eq. intros [-> ->]. auto. Qed.
Lemma vz_add s u w : vadd (vz s u) (vz s w) = vz s (zvadd u w).
Proof. destruct u as [[a b] d], w as [[x y] z]. cbn [vz zvadd vadd]. rewrite !ev_a. f_equal; [f_equal|]; ring. Qed.
Lemma vz_sub s u w : vsub (vz s u) (vz s w) = vz s (zvsub u w).
Proof. destruct u as [[a b] d], w as [[x y] z]. cbn [vz zvsub vsub]. rewrite !ev_s. f_equal; [f_equal|]; ring. Qed.
Lemma vz_dot s u w : vdot (vz s u) (vz s w) = s * s * ev (zdot u w).
Proof. destruct u as [[a b] d], w as [[x y] z]. cbn [vz zdot vdot]. rewrite !ev_a, !ev_m. ring. Qed.
Lemma vz_det s u w t : det3 (vz s u) (vz s w) (vz s t) = s * s * s * ev (zdot u (zcross w t)).
Proof.
  destruct u as [[a b] d], w as [[x y] z], t as [[k l] o]. cbn [vz zdot zcross]. unfold det3. rewrite !ev_a, !ev_m, !ev_s, !ev_m. ring.
Qed.
Lemma vz_pt s (zs : list zv) i : pt (map (vz s) zs) i = vz s (nth i zs z0).
Proof.
  unfold pt. replace zero3 with (vz s z0) at 1; [apply map_nth|]. unfold vz, z0, ev, zero3. cbn [fst snd]. f_equal; [f_equal|]; ring.
Qed.
Definition zfacet (zl : list zv) (l : list nat) : bool :=
  let v := fold_right zvadd z0 (map (fun i => nth i zl z0) l) in
  let c := zdot v (nth (hd 0%nat l) zl z0) in
  forallb (fun i => zeq (zdot v (nth i zl z0)) c) l &&
  forallb (fun k => inb k l || zpos (zs c (zdot v (nth k zl z0)))) (seq 0 (length zl)) &&
  forallb (fun p => forallb (fun k => Nat.eqb k (fst p) || Nat.eqb k (snd p) ||
    zpos (zdot v (zcross (zvsub (nth (snd p) zl z0) (nth (fst p) zl z0)) (zvsub (nth k zl z0) (nth (fst p) zl z0))))) l) (cyc l).
Lemma zfacet_ok s zl l : 0 < s -> zfacet zl l = true -> facet (map (vz s) zl) l.
Proof.
  intros S. unfold zfacet. set (v := fold_right zvadd z0 (map (fun i => nth i zl z0) l)). set (c := zdot v (nth (hd 0%nat l) zl z0)).
  rewrite !andb_true_iff, !forallb_forall. intros [[A B] D].
  assert (S2 : 0 < s * s) by (apply Rmult_lt_0_compat; auto). assert (S3 : 0 < s * s * s) by (apply Rmult_lt_0_compat; auto).
  exists (vz s v), (s * s * ev c). split; [|split].
  - intros i I. rewrite vz_pt, vz_dot. f_equal. apply ev_eq. apply A; auto.
  - intros k K NI. rewrite map_length in K. rewrite vz_pt, vz_dot. specialize (B k). rewrite orb_true_iff, inb_in in B.
    destruct B as [B|B]; [apply in_seq; lia|tauto|]. apply ev_pos in B. rewrite ev_s in B. apply Rmult_lt_compat_l; lra.
  - intros i j k I K NI NJ. rewrite !vz_pt, !vz_sub, vz_det. specialize (D _ I). cbn [fst snd] in D. rewrite forallb_forall in D. specialize (D k K).
    rewrite !orb_true_iff, !Nat.eqb_eq in D. destruct D as [[D|D]|D]; try congruence. apply ev_pos in D. apply Rmult_lt_0_compat; auto.
Qed.
Definition dodeca_z : list zv :=
  let o := (0, 0)%Z in let p := (1, 1)%Z in let s := (1, 0)%Z in let r := (0, 1)%Z in let p' := (-1, -1)%Z in let s' := (-1, 0)%Z in let r' := (0, -1)%Z in
  [(o, p, s); (r, r, r); (s, o, p); (s', o, p); (r', r, r);
   (p, s, o); (r, r, r'); (o, p, s'); (r', r, r'); (p', s, o); (p', s', o); (r', r', r); (o, p', s); (r, r', r); (p, s', o);
   (r, r', r'); (s, o, p'); (s', o, p'); (r', r', r'); (o, p', s')].
Lemma dodeca_z_ok r : 0 < r -> dodeca_points r = map (vz (r / golden)) dodeca_z.
Proof.
  intros H. rewrite dodeca_points_list. destruct (dodeca_law H) as (P & S & _). cbv zeta in *.
  destruct sqrt5 as [Q [A B]]. assert (G : golden <> 0) by (unfold golden; lra).
  assert (E : r = r / golden * golden) by (field; auto). rewrite P. set (s := r / golden) in *. clearbody s. subst r.
  unfold dodeca_list, dodeca_z. cbv zeta. cbn [map]. unfold vz, ev. cbn [fst snd].
  repeat (apply (f_equal2 cons); [apply (f_equal2 pair); [apply (f_equal2 pair)|]; ring|]). reflexivity.
Qed.
Lemma dodeca_convex r : 0 < r -> convex_solid (dodeca_points r) dodeca_polys.
Proof.
  intros H l I. rewrite (dodeca_z_ok H). destruct (dodeca_law H) as (_ & S & _). cbv zeta in S. apply zfacet_ok; auto.
  assert (X : forallb (zfacet dodeca_z) dodeca_polys = true) by (vm_compute; reflexivity). rewrite forallb_forall in X. auto.
Qed.
Lemma dodeca_sides r : 0 < r -> sides (dodeca_points r) dodeca_polys (2 * r / golden).
Proof.
  intros HR l i j I C. rewrite dodeca_points_list. destruct (dodeca_law HR) as (P & S & LB & UB & Q). cbv zeta in *.
  replace (2 * r / golden) with (2 * (r / golden)) by (unfold Rdiv; ring). set (s := r / golden) in *. clearbody s. rewrite P. clear P.
  unfold dodeca_polys in I. unfold dodeca_list. each I; subst l; cbn [cyc tl firstn app combine] in C; each C; injection C as <- <-.
  all: apply dist_sq; [lra|at_pt; unfold vsub, vdot; lra].
Qed.
Lemma dodeca_on r : 0 < r -> Forall (on_sphere zero3 (sqrt 3 * r)) (dodeca_points r).
Proof.
  intros HR. rewrite dodeca_points_list. destruct (dodeca_law HR) as (P & S & LB & UB & Q). cbv zeta in *.
  set (s := r / golden) in *. clearbody s. rewrite P. clear P. assert (S3 : sqrt 3 * sqrt 3 = 3) by (apply sqrt_sqrt; lra).
  assert (P3 : 0 < sqrt 3) by (apply sqrt_lt_R0; lra). assert (0 < sqrt 3 * r) by (apply Rmult_lt_0_compat; auto).
  assert (E : sqrt 3 * r * (sqrt 3 * r) = 3 * (r * r)) by (transitivity (sqrt 3 * sqrt 3 * (r * r)); [ring|rewrite S3; ring]).
  unfold dodeca_list. repeat (constructor; [apply sphere_sq; auto; rewrite E; unfold vdot; lra|]). constructor.
Qed.
Lemma dodeca_top_good (EP FP : Type) (dE : EP) (dF : FP) c r : 0 < r -> (60 <= capE c)%nat -> (20 <= capV c)%nat -> (12 <= capF c)%nat ->
  exists (m : mesh vec3 EP FP), dodeca_mesh dE dF c 0 1 (dodeca_top_turned r) (dodeca_mid r) (dodeca_bottom r) = Ok m /\ wf m /\
    solid (abs m) dF (dodeca_points r) dodeca_polys 30 /\ convex_solid (dodeca_points r) dodeca_polys /\
    sides (dodeca_points r) dodeca_polys (2 * r / golden) /\ Forall (on_sphere zero3 (sqrt 3 * r)) (dodeca_points r).
Proof.
  intros H A B D. destruct (@dodeca_good vec3 EP FP dE dF (0, r * golden, r / golden) (r, r, r) (r / golden, 0, r * golden) (- (r / golden), 0, r * golden) (- r, r, r)
     (r * golden, r / golden, 0) (r, r, - r) (0, r * golden, - (r / golden)) (- r, r, - r) (- (r * golden), r / golden, 0)
     (- (r * golden), - (r / golden), 0) (- r, - r, r) (0, - (r * golden), r / golden) (r, - r, r) (r * golden, - (r / golden), 0)
     (r, - r, - r) (r / golden, 0, - (r * golden)) (- (r / golden), 0, - (r * golden)) (- r, - r, - r) (0, - (r * golden), - (r / golden)) c A B D) as (m & E & W & SO).
  exists m. split; [exact E|]. split; [exact W|]. split; [exact SO|]. split; [apply dodeca_convex; auto|]. split; [apply dodeca_sides; auto|apply dodeca_on; auto].
Qed.
Lemma dodecahedron_debug (EP FP : Type) (dE : EP) (dF : FP) c r : (60 <= capE c)%nat -> (20 <= capV c)%nat -> (12 <= capF c)%nat -> dbg c = true ->
  @dodecahedron EP FP dE dF c r = Panic.
Proof. intros. unfold dodecahedron. apply dodeca_debug; auto. Qed.
Lemma dodecahedron_release (EP FP : Type) (dE : EP) (dF : FP) c r : (60 <= capE c)%nat -> (20 <= capV c)%nat -> (12 <= capF c)%nat -> dbg c = false ->
  exists m : mesh vec3 EP FP, dodecahedron dE dF c r = Ok m /\ ~ wf m /\ num_faces m = 12%nat /\ num_vertices m = 20%nat /\
    (exists h, hole (abs m) h /\ map (fun e => vp (abs m) (og (abs m) e)) h = map Some (dodeca_top r)) /\
    exists f1 f2, f1 <> f2 /\ lvf (abs m) f1 = true /\ lvf (abs m) f2 = true /\ reach (nx (abs m)) (fe (abs m) f1) (fe (abs m) f2).
Proof. intros. unfold dodecahedron. apply dodeca_release; auto. Qed.
Ltac to_length := match goal with H : length ?l = _ |- _ => destruct l; try discriminate; cbn [length] in H; apply Nat.succ_inj in H end.
Lemma dodeca_any (VP EP FP : Type) (dE : EP) (dF : FP) c (top mid bottom : list VP) :
  length top = 5%nat -> length mid = 10%nat -> length bottom = 5%nat -> (60 <= capE c)%nat -> (20 <= capV c)%nat -> (12 <= capF c)%nat ->
  (exists m : mesh VP EP FP, dodeca_mesh dE dF c 0 1 top mid bottom = Ok m /\ wf m /\ solid (abs m) dF (top ++ mid ++ bottom) dodeca_polys 30) /\
  (dbg c = true -> dodeca_mesh dE dF c 1 0 top mid bottom = Panic).
Proof.
  intros T M B A1 A2 A3. repeat to_length. repeat match goal with H : length ?l = 0%nat |- _ => apply length_zero_iff_nil in H; subst l end.
  split; [apply dodeca_good; auto|intros; apply dodeca_debug; auto].
Qed.
(** the points in the order of the code do not fit *)
Lemma dodeca_unfit r s : 0 < r -> ~ sides (dodeca_top r ++ dodeca_mid r ++ dodeca_bottom r) dodeca_polys s.
Proof.
  intros HR H. destruct (dodeca_law HR) as (P & S & LB & UB & Q). cbv zeta in *.
  assert (A : dist (pt (dodeca_top r ++ dodeca_mid r ++ dodeca_bottom r) 5) (pt (dodeca_top r ++ dodeca_mid r ++ dodeca_bottom r) 6) = s)
    by (apply (H [5; 6; 7; 0; 1]%nat); cbn; tauto).
  assert (B : dist (pt (dodeca_top r ++ dodeca_mid r ++ dodeca_bottom r) 7) (pt (dodeca_top r ++ dodeca_mid r ++ dodeca_bottom r) 0) = s)
    by (apply (H [5; 6; 7; 0; 1]%nat); cbn; tauto).
  rewrite <- A in B. clear A H. unfold dodeca_top, dodeca_mid, dodeca_bottom, pt in B. cbv zeta in B. cbn [app nth] in B. rewrite P in B. clear P.
  set (i := r / golden) in *. clearbody i. unfold dist, vlen, vsub, vdot in B.
  apply sqrt_inj in B; nra.
Qed.
