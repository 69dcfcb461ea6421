(** Property C84: the import of SVG documents. *)
From Coq Require Import List Arith Bool.
From Verif Require Import Base DVec Mesh Spec MeshSpec MeshEx BuildSpec PathBuilder PathBSpec SvgDoc SvgDocSpec SvgDocProofs.
Import ListNotations.

(** C84. A document without texts and images, whose visible paths are closed outlines that return to their starting
    point only at the end, is imported as one polygon per visible outline, in the order of the document, through
    arbitrarily nested groups; invisible paths are skipped. A text without a root element is read as the content of an
    svg element. *)
Theorem C84_document :
  forall (VP EP FP : Type) (dE : EP) (dF : FP) (same : VP -> VP -> bool) (text : Type) (parse : text -> parsed VP EP)
    (wrap : text -> text) (c : cfg) (m : mesh VP EP FP) (s : text) root rs a b d,
    parse s = Parsed root \/ parse s = NoRoot /\ parse (wrap s) = Parsed root ->
    draws root rs -> Forall (o_ok same) rs -> wf m ->
    fits c m (2 * list_sum (map (@o_size VP EP) rs) + a) (list_sum (map (@o_size VP EP) rs) + b) (length rs + d) ->
    exists n m' fs, (forall fuel, n <= fuel -> import_svg dE dF same parse wrap fuel c m s = Ok m') /\
      wf m' /\ fits c m' a b d /\ polygons dE dF (abs m) rs fs (abs m').
Proof. exact @svg_total. Qed.
Print Assumptions C84_document.

Example C84_document_ex :
  draws moved_square [ex_outline] /\ Forall (o_ok eq_pt) [ex_outline] /\
  wf (@empty_mesh (nat * nat) nat nat) /\ fits c0 (@empty_mesh (nat * nat) nat nat) (2 * 4 + 0) (4 + 0) (1 + 0) /\
  exists m', import_svg (FP := nat) 0 0 eq_pt (fun b : bool => if b then Parsed moved_square else NoRoot) negb 2 c0 empty_mesh false = Ok m'.
Proof.
  split; [exact moved_square_draws|]. split. { repeat constructor. }
  split; [apply wfb_ok; vm_compute; reflexivity|]. split; [repeat split; apply Nat.leb_le; vm_compute; reflexivity|].
  eexists. vm_compute. reflexivity.
Qed.

(** A document with a text or an image, however deeply nested, is never imported. *)
Theorem C84_text_panics :
  forall (VP EP FP : Type) (dE : EP) (dF : FP) (same : VP -> VP -> bool) (text : Type) (parse : text -> parsed VP EP)
    (wrap : text -> text) (c : cfg) (m : mesh VP EP FP) (s : text) root,
    parse s = Parsed root \/ parse s = NoRoot /\ parse (wrap s) = Parsed root ->
    has_text root -> forall fuel m', import_svg dE dF same parse wrap fuel c m s <> Ok m'.
Proof. exact @svg_text. Qed.
Print Assumptions C84_text_panics.

Example C84_text_ex : has_text (moved_square ++ [NGroup (fun p => p) [NText]]).
Proof. apply text_later, text_group, text_here. Qed.

(** The transformations of groups and paths are ignored. *)
Theorem C84_transformations_ignored :
  forall (VP EP FP : Type) (dE : EP) (dF : FP) (same : VP -> VP -> bool) (c : cfg) (cs ds : list (node VP EP)),
    same_but_moved cs ds ->
    forall m : mesh VP EP FP, import_group dE dF same c m cs = import_group dE dF same c m ds.
Proof. exact @group_moved. Qed.
Print Assumptions C84_transformations_ignored.

(** So a point of a moved square is not where it is drawn: no vertex of the imported mesh is at the first point of the
    document. *)
Theorem C84_position_refuted : exists (doc : list (node (nat * nat) nat)) p m',
  starts_at doc p /\ import_group (FP := nat) 0 0 eq_pt c0 empty_mesh doc = Ok m' /\
  forall v x, d_get (verts m') v = Ok x -> v_pay x <> p.
Proof. exact moved_square_wrong. Qed.
Print Assumptions C84_position_refuted.
