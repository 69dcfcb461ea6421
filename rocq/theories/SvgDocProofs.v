(** The import of SVG documents. *)
From Coq Require Import List Arith Bool Lia.
From Verif Require Import Base DVec Mesh Spec MeshSpec MeshFacts BuildSpec PathBuilder PathBSpec SvgProofs SvgDoc SvgDocSpec MeshEx.
Import ListNotations.
Set Implicit Arguments.
Unset Strict Implicit.
Local Arguments abs : simpl never.

Section SvgDocProofs.
  Context {VP EP FP : Type}.
  Notation mesh := (mesh VP EP FP).
  Implicit Types (m : mesh).
  Variable (dE : EP) (dF : FP) (same : VP -> VP -> bool).
  Notation import_node := (@import_node VP EP FP dE dF same).
  Notation import_group := (@import_group VP EP FP dE dF same).
  Notation import_svg := (@import_svg VP EP FP dE dF same).
  Notation polygons := (@polygons VP EP FP dE dF).
  Notation o_ok := (@o_ok VP EP same).

  Lemma node_group c m t cs : import_node c m (NGroup t cs) = import_group c m cs.
  Proof.
    unfold SvgDoc.import_group. cbn [SvgDoc.import_node]. revert m. induction cs as [|y cs IH]; intros m; cbn [foldM]; auto.
    destruct (import_node c m y); cbn [bind]; auto.
  Qed.

  Lemma group_cons c m x cs : import_group c m (x :: cs) = let* m1 := import_node c m x in import_group c m1 cs.
  Proof. reflexivity. Qed.

  Fixpoint total (rs : list (@outline VP EP)) : nat := match rs with [] => 0 | r :: rs => o_size r + total rs end.
  Lemma total_app rs ss : total (rs ++ ss) = total rs + total ss.
  Proof. induction rs as [|r rs IH]; cbn [app total]; auto. rewrite IH. apply Nat.add_assoc. Qed.

  Lemma polygons_app g rs fs g1 ss hs g2 : polygons g rs fs g1 -> polygons g1 ss hs g2 -> polygons g (rs ++ ss) (fs ++ hs) g2.
  Proof. intros A B. induction A; cbn [app]; auto. econstructor; eauto. Qed.

  Lemma group_total c : forall cs rs, draws cs rs -> Forall o_ok rs -> forall m a b d, wf m ->
    fits c m (2 * total rs + a) (total rs + b) (length rs + d) ->
    exists m' fs, import_group c m cs = Ok m' /\ wf m' /\ fits c m' a b d /\ polygons (abs m) rs fs (abs m').
  Proof.
    intros cs rs D. induction D as [|t cs ds rs ss D1 I1 D2 I2|t r ds rs D I|t segs ds rs D I]; intros F m a b d Wm Ft.
    - exists m, []. split; [reflexivity|]. split; [exact Wm|]. split; [exact Ft|]. constructor.
    - apply Forall_app in F as [F1 F2]. rewrite total_app, app_length in Ft.
      destruct (I1 F1 m (2 * total ss + a) (total ss + b) (length ss + d) Wm) as (m1 & fs & E1 & W1 & Ft1 & P1).
      { replace (2 * total rs + (2 * total ss + a)) with (2 * (total rs + total ss) + a) by lia.
        rewrite !Nat.add_assoc. exact Ft. }
      destruct (I2 F2 m1 a b d W1 Ft1) as (m2 & hs & E2 & W2 & Ft2 & P2).
      exists m2, (fs ++ hs). rewrite group_cons, node_group, E1. cbn [bind]. split; [exact E2|]. split; [exact W2|].
      split; [exact Ft2|]. exact (polygons_app P1 P2).
    - apply Forall_cons_iff in F as [(F1 & F2 & F3) F].
      destruct (@import_ring VP EP FP dE dF same c m (o_start r) (o_strokes r) (o_last r)
                  (if o_close r then [SClose] else []) (2 * total rs + a) (total rs + b) (length rs + d) Wm F1 F2 F3)
        as (m1 & f & es & vs & E1 & W1 & Ft1 & R & H & Fc & P1 & P2).
      { destruct (o_close r); auto. }
      { cbn [total length] in Ft. unfold o_size in Ft.
        replace (2 * S (length (o_strokes r)) + (2 * total rs + a)) with (2 * (S (length (o_strokes r)) + total rs) + a) by lia.
        rewrite !Nat.add_assoc. exact Ft. }
      destruct (I F m1 a b d W1 Ft1) as (m2 & fs & E2 & W2 & Ft2 & P).
      exists m2, (f :: fs). rewrite group_cons. cbn [SvgDoc.import_node negb]. unfold o_segs. rewrite E1. cbn [bind].
      split; [exact E2|]. split; [exact W2|]. split; [exact Ft2|]. econstructor; eauto.
    - destruct (I F m a b d Wm Ft) as (m1 & fs & E1 & W1 & Ft1 & P1). exists m1, fs. rewrite group_cons.
      cbn [SvgDoc.import_node negb bind]. auto.
  Qed.

  Lemma svg_total (text : Type) (parse : text -> parsed VP EP) wrap c m s root rs a b d : 
    parse s = Parsed root \/ parse s = NoRoot /\ parse (wrap s) = Parsed root ->
    draws root rs -> Forall o_ok rs -> wf m ->
    fits c m (2 * list_sum (map (@o_size VP EP) rs) + a) (list_sum (map (@o_size VP EP) rs) + b) (length rs + d) ->
    exists n m' fs, (forall fuel, n <= fuel -> import_svg parse wrap fuel c m s = Ok m') /\
      wf m' /\ fits c m' a b d /\ polygons (abs m) rs fs (abs m').
  Proof.
    intros P D F Wm Ft.
    assert (T : list_sum (map (@o_size VP EP) rs) = total rs).
    { clear. unfold list_sum. induction rs as [|r rs IH]; cbn [map fold_right total]; auto. }
    rewrite T in Ft. destruct (group_total D F Wm Ft) as (m' & fs & E & W' & Ft' & Q).
    exists 2, m', fs. split; auto. intros [|[|fuel]] L; try lia. cbn [SvgDoc.import_svg].
    destruct P as [P|[P1 P2]]; [rewrite P; exact E|]. rewrite P1, P2. exact E.
  Qed.

  Lemma group_text c : forall cs, has_text cs -> forall m m', import_group c m cs <> Ok m'.
  Proof.
    intros cs H. induction H as [ds|ds|t cs ds H I|x ds H I]; intros m m'; rewrite group_cons; try (cbn; discriminate).
    - rewrite node_group. intros E. apply bind_ok in E as (m1 & E & _). exact (I _ _ E).
    - intros E. apply bind_ok in E as (m1 & _ & E). exact (I _ _ E).
  Qed.

  Lemma svg_text (text : Type) (parse : text -> parsed VP EP) wrap c m s root :
    parse s = Parsed root \/ parse s = NoRoot /\ parse (wrap s) = Parsed root ->
    has_text root -> forall fuel m', import_svg parse wrap fuel c m s <> Ok m'.
  Proof.
    intros P H [|fuel] m'; [discriminate|]. cbn [SvgDoc.import_svg]. destruct P as [P|[P1 P2]].
    - rewrite P. apply group_text; auto.
    - rewrite P1. destruct fuel as [|fuel]; [discriminate|]. cbn [SvgDoc.import_svg]. rewrite P2. apply group_text; auto.
  Qed.

  Lemma group_moved c : forall cs ds, same_but_moved cs ds -> forall m, import_group c m cs = import_group c m ds.
  Proof.
    intros cs ds H. induction H as [|t u cs cs' ds ds' H1 I1 H2 I2|v t u segs ds ds' H I|ds ds' H I|ds ds' H I]; intros m; auto;
      rewrite !group_cons.
    - rewrite !node_group, I1. destruct (import_group c m cs'); cbn [bind]; auto.
    - cbn [SvgDoc.import_node]. destruct (negb v); cbn [bind]; auto. destruct (import_path _ _ _ _ _ _); cbn [bind]; auto.
  Qed.
End SvgDocProofs.

(** A square moved by 10 to the right. *)
Definition moved_square : list (node (nat * nat) nat) :=
  let t p := (10 + fst p, snd p) in
  [NGroup t [NPath true t [SMove (0, 0); SLine (1, 0); SLine (1, 1); SLine (0, 1); SLine (0, 0); SClose]]].
Definition eq_pt (p q : nat * nat) : bool := Nat.eqb (fst p) (fst q) && Nat.eqb (snd p) (snd q).
Definition ex_outline : @outline (nat * nat) nat := mkOutline (0, 0) [(None, (1, 0)); (None, (1, 1)); (None, (0, 1))] (None, (0, 0)) true.

Lemma moved_square_draws : draws moved_square [ex_outline].
Proof.
  change [ex_outline] with ([ex_outline] ++ [] : list (@outline (nat * nat) nat)).
  apply draws_group; [|constructor]. exact (draws_path (fun p => (10 + fst p, snd p)) ex_outline (draws_nil (VP := nat * nat) (EP := nat))).
Qed.

Lemma moved_square_wrong : exists (doc : list (node (nat * nat) nat)) p m',
  starts_at doc p /\ import_group (FP := nat) 0 0 eq_pt c0 empty_mesh doc = Ok m' /\
  forall v x, d_get (verts m') v = Ok x -> v_pay x <> p.
Proof.
  exists moved_square, (10, 0).
  destruct (import_group (FP := nat) 0 0 eq_pt c0 empty_mesh moved_square) as [m'| |] eqn:E; try (vm_compute in E; discriminate).
  exists m'. split. { apply starts_group. exact (starts_path (fun p => (10 + fst p, snd p)) _ _ _). }
  split; [reflexivity|].
  assert (B : forallb (fun v => match d_get (verts m') v with Ok x => negb (eq_pt (v_pay x) (10, 0)) | _ => true end)
                (seq 0 (d_cap (verts m'))) = true).
  { vm_compute in E. injection E as <-. vm_compute. reflexivity. }
  intros v x G H. assert (L : v < d_cap (verts m')).
  { unfold d_cap. apply nth_error_Some. intros N. unfold d_get in G. rewrite N in G. discriminate G. }
  rewrite forallb_forall in B. specialize (B v). rewrite G, H in B. discriminate B. apply in_seq. lia.
Qed.
