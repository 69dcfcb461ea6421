(** Concrete meshes for the examples of C14 and C15. *)
From Coq Require Import List Arith Lia Bool.
From Verif Require Import Base DVec DVecFacts Mesh Spec MeshSpec MeshMore MeshEx RefineSpec Import.
Import ListNotations.

Definition importableb (m : mesh nat nat nat) : bool :=
  all_below (length (slots (verts m))) (fun v => implb (lvv (abs m) v) (negb (is_none (ve (abs m) v)))) &&
  all_below (length (slots (edges m))) (fun e => implb (lv (abs m) e) (negb (nx (abs m) e =? e))).
Lemma importableb_ok m : importableb m = true -> importable (abs m).
Proof.
  intros H. apply andb_true_iff in H as [A B]. split; intros x L E.
  - pose proof L as L'. apply has_look in L'. destruct (look (verts m) x) eqn:Q; [|congruence]. apply look_lt in Q.
    pose proof (all_below_ok A Q) as Z. cbv beta in Z. rewrite L, E in Z. discriminate.
  - pose proof L as L'. apply has_look in L'. destruct (look (edges m) x) eqn:Q; [|congruence]. apply look_lt in Q.
    pose proof (all_below_ok B Q) as Z. cbv beta in Z. rewrite L, E, Nat.eqb_refl in Z. discriminate.
Qed.

(** A sparse source: both sides of a square were closed, then the first face was removed. *)
Definition ex_sparse : mesh nat nat nat := get_ok empty_mesh
  (let* (m, _) := close_hole c0 ex_square 0 5 true in
   let* (m, _) := remove_face c0 m 0 in Ok m).
(** The square and an isolated vertex. *)
Definition ex_lonely : mesh nat nat nat := get_ok empty_mesh (let* (m, _) := add_vertex c0 ex_square 9 in Ok m).
(** One curved face. *)
Definition ex_curved : mesh nat nat nat := get_ok empty_mesh (let* (m, _) := close_hole c0 ex_loop4 0 7 true in Ok m).

Lemma import_isolated : exists (m : mesh nat nat nat),
  wf m /\ d_len (edges m) <= 255 /\ d_len (verts m) <= 255 /\ d_len (faces m) <= 255 /\
  import_mesh S S S c0 m = Panic.
Proof.
  exists ex_lonely. split; [apply wfb_ok; vm_compute; reflexivity|].
  do 3 (split; [apply Nat.leb_le; vm_compute; reflexivity|]). vm_compute. reflexivity.
Qed.
Lemma import_curved : exists (m : mesh nat nat nat) m', wf m /\
  import_mesh (fun x => x) (fun x => x) (fun x => x) c0 m = Ok m' /\
  fp (abs m) 0 = Some (true, 7) /\ fp (abs m') 0 = Some (false, 7).
Proof.
  exists ex_curved. eexists. split; [apply wfb_ok; vm_compute; reflexivity|].
  do 2 (split; [vm_compute; reflexivity|]). vm_compute. reflexivity.
Qed.
