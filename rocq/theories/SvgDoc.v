(** The import of an SVG document (src/extensions/svg/svg.rs, mod.rs) on top of the import of a path (PathBuilder.v).

    Simplifications: the parser usvg is an arbitrary function [parse] from texts to its results; a tree of usvg is a list
    of nodes, each carrying the transformation that usvg attaches to it, of which the code reads nothing. *)
From Coq Require Import List Arith Bool.
From Verif Require Import Base DVec Mesh PathBuilder.
Import ListNotations.
Set Implicit Arguments.
Unset Strict Implicit.

(** usvg::Node as matched in svg.rs:15-32: a path has its visibility, its transformation and its segments *)
Inductive node {VP EP : Type} :=
| NGroup (t : VP -> VP) (cs : list node)
| NPath (visible : bool) (t : VP -> VP) (segs : list (seg VP EP))
| NText
| NImage.
Arguments node : clear implicits.

(** The result of [usvg::Tree::from_str] as matched in svg.rs:92-112 *)
Inductive parsed {VP EP : Type} :=
| Parsed (root : list (node VP EP))
| NoRoot
| ParseError.
Arguments parsed : clear implicits.

Section SvgDoc.
  Context {VP EP FP : Type}.
  Notation mesh := (mesh VP EP FP).
  Variable (dE : EP) (dF : FP) (same : VP -> VP -> bool).

  (** svg.rs:9-33 [import_group], one child, with svg.rs:40-42 for an invisible path; [todo!] panics *)
  Fixpoint import_node (c : cfg) (m : mesh) (x : node VP EP) : res mesh :=
    match x with
    | NGroup _ cs =>
        (fix go (cs : list (node VP EP)) (m : mesh) : res mesh :=
           match cs with
           | [] => Ok m
           | y :: cs => let* m1 := import_node c m y in go cs m1
           end) cs m
    | NPath vis _ segs => if negb vis then Ok m else import_path dE dF same c m segs
    | NText => Panic
    | NImage => Panic
    end.

  (** svg.rs:9-33 [import_group] *)
  Definition import_group (c : cfg) (m : mesh) (cs : list (node VP EP)) : res mesh :=
    foldM (import_node c) cs m.

  (** svg.rs:86-115 [import_svg]; [wrap] puts the text between the tags of an svg element *)
  Fixpoint import_svg {text : Type} (parse : text -> parsed VP EP) (wrap : text -> text) (fuel : nat) (c : cfg)
    (m : mesh) (s : text) : res mesh :=
    match fuel with
    | 0 => Diverge
    | S fuel =>
        match parse s with
        | NoRoot => import_svg parse wrap fuel c m (wrap s)
        | ParseError => Panic
        | Parsed root => import_group c m root
        end
    end.
End SvgDoc.
