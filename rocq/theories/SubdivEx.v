(** Deciding closed triangle meshes, and the meshes used in the examples for subdivision. *)
From Coq Require Import List Arith Lia Bool.
From Verif Require Import Base DVec DVecFacts Mesh Spec MeshSpec MeshMore MeshEx MeshProofs Solid Interpolate InterpolateFacts Subdivision SubdivSpec.
Import ListNotations.
Set Implicit Arguments.
Unset Strict Implicit.

Section Dec.
  Context {VP EP FP : Type}.
  Implicit Types (m : mesh VP EP FP).
  Definition trianglesb m : bool :=
    let g := abs m in
    all_below (length (slots (edges m))) (fun e => implb (lv g e)
      (match fc g e with None => false | Some _ => true end && (nx g (nx g (nx g e)) =? e) && negb (nx g e =? e) && negb (og g (tw g e) =? og g e))).
  Lemma trianglesb_ok m : trianglesb m = true -> triangles (abs m).
  Proof.
    intros H. pose proof (all_below_ok H) as H'. clear H.
    assert (X : forall e, lv (abs m) e = true -> fc (abs m) e <> None /\ nx (abs m) (nx (abs m) (nx (abs m) e)) = e /\
      nx (abs m) e <> e /\ og (abs m) (tw (abs m) e) <> og (abs m) e).
    { intros e L. pose proof (has_lt L) as LT. specialize (H' _ LT). cbv beta in H'. rewrite L in H'. cbn [implb] in H'.
      rewrite !andb_true_iff, !negb_true_iff, !Nat.eqb_neq, Nat.eqb_eq in H'. destruct H' as [[[A B] C] D].
      split; auto. destruct (fc (abs m) e); [discriminate|]. discriminate. }
    split; intros e L; destruct (X e L) as (A & B & C & D); auto.
  Qed.
End Dec.

(** Positions on a line, measured in whole numbers. *)
Definition line_call : mesh nat nat nat -> list (nat * nat) -> res nat :=
  linear_call (fun x => x) (fun x => x) (fun x => x) Nat.add Nat.mul Nat.div.
Definition line_mid (ps : list (nat * nat)) : nat :=
  match ps with [(i, p); (j, q); (k, r)] => (p * i + q * j + r * k) / (i + j + k) | _ => 0 end.

Definition ex_tetrahedron : mesh nat nat nat := get_ok empty_mesh (pyramid 0 7 c0 [0; 10; 20] 30).
Definition ex_icosahedron : mesh nat nat nat := get_ok empty_mesh (icosahedron 0 7 c0 [0; 10; 20; 30; 40] [50; 60; 70; 80; 90] 100 110).
(** one triangle with a boundary *)
Definition ex_triangle : mesh nat nat nat := get_ok empty_mesh (let* (m, _) := insert_polygon 0 7 c0 empty_mesh [0; 10; 20] in Ok m).
(** a torus made of one vertex and two triangles *)
Definition dense {A} (l : list A) : dvec A := mkD (map Some (combine (seq 0 (length l)) l)) [].
Definition ex_torus : mesh nat nat nat := mkM
  (dense [mkE 1 3 2 0 (Some 0) 0; mkE 2 4 0 0 (Some 0) 0; mkE 0 5 1 0 (Some 0) 0;
          mkE 4 0 5 0 (Some 1) 0; mkE 5 1 3 0 (Some 1) 0; mkE 3 2 4 0 (Some 1) 0])
  (dense [mkV (Some 0) 5]) (dense [mkF 0 false 7; mkF 3 false 7]).

Lemma line_reads : reads (fun _ _ _ => True) line_mid line_call.
Proof. apply linear_reads. intros. reflexivity. Qed.

Lemma twins_wrong (m : mesh nat nat nat) e : lv (abs m) e = true -> (tw (abs m) (tw (abs m) e) =? e) = false -> ~ wf m.
Proof. intros L E Wm. destruct (wf_abs Wm) as [_ W]. rewrite (wf_twtw W _ L), Nat.eqb_refl in E. discriminate. Qed.

(** With a boundary. *)
Lemma subdivide_open : exists (m m' : mesh nat nat nat), wf m /\
  (forall e, lv (abs m) e = true -> nx (abs m) (nx (abs m) (nx (abs m) e)) = e /\ nx (abs m) e <> e /\ og (abs m) (tw (abs m) e) <> og (abs m) e) /\
  loop_subdivision 0 line_call c0 m = Ok m' /\ ~ wf m' /\ num_edges m' = 15.
Proof.
  exists ex_triangle. eexists. split; [apply wfb_ok; vm_compute; reflexivity|]. split.
  - intros e L. assert (B : e < 6) by (apply (has_lt L)).
    do 6 (destruct e as [|e]; [vm_compute; split; [reflexivity|]; split; discriminate|]). lia.
  - split; [vm_compute; reflexivity|]. split; [|vm_compute; reflexivity]. apply twins_wrong with (e := 8); vm_compute; reflexivity.
Qed.
(** With half-edges that return to their origin. *)
Lemma subdivide_torus : exists (m m' : mesh nat nat nat), wf m /\
  (forall e, lv (abs m) e = true -> fc (abs m) e <> None /\ nx (abs m) (nx (abs m) (nx (abs m) e)) = e /\ nx (abs m) e <> e) /\
  loop_subdivision 0 line_call c0 m = Ok m' /\ ~ wf m' /\ num_edges m = 6 /\ num_vertices m = 1 /\ num_vertices m' = 3.
Proof.
  exists ex_torus. eexists. split; [apply wfb_ok; vm_compute; reflexivity|]. split.
  - intros e L. assert (B : e < 6) by (apply (has_lt L)).
    do 6 (destruct e as [|e]; [vm_compute; split; [discriminate|]; split; [reflexivity|discriminate]|]). lia.
  - split; [vm_compute; reflexivity|]. split; [|repeat split; vm_compute; reflexivity]. apply twins_wrong with (e := 1); vm_compute; reflexivity.
Qed.

Lemma true_survives VP EP FP (phi : list (nat * VP) -> VP) : survives (EP := EP) (FP := FP) (fun _ _ _ => True) phi.
Proof. intros mid g g' _ _ _ _ _ _ _ h p q r _ _ _ _. exact I. Qed.
