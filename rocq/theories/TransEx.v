(** Concrete meshes with positions, normals and curved edges. *)
From Coq Require Import List Arith ZArith QArith Lia Bool.
From Verif Require Import Base DVec Mesh Spec MeshMore MeshEx Alg AlgSpec Transform TransSpec MathEx.
Import ListNotations.
Set Implicit Arguments.
Unset Strict Implicit.
Local Open Scope nat_scope.

Definition qv (l : list Q) : nat -> Q := fun i => nth i l 0%Q.
Definition q_at (n p : list Q) : pnu Q := mkP (qv p) (qv n) (qv []).
(** a triangle in the plane z = 0 with its normals; one edge is curved *)
Definition ex_tri : mesh (pnu Q) (curve Q) nat := get_ok empty_mesh
  (let* (m, _) := insert_polygon (Linear Q) 7 c0 empty_mesh (map (q_at [0; 0; 1 # 2]%Q) [[0; 0; 0]; [0; 1; 0]; [1; 0; 0]]%Q) in
   upd_edge m 0 (fun x => mkE (e_next x) (e_twin x) (e_prev x) (e_origin x) (e_face x) (Quadratic (qv [1; -1; 0]%Q)))).
Definition q_normal := face_normal 0%Q Qplus Qmult Qminus (-1 # 2)%Q (FP := nat).
Definition q_transform := t_transform 0%Q Qplus Qmult 3 (FP := nat).
Definition q_scale := t_scale 0%Q Qplus Qmult 3 (FP := nat).
Definition q_point := edge_point 1%Q Qplus Qmult Qminus (FP := nat).
(** a rotation by 90 degrees about the z-axis, then a translation *)
Definition q_turn : affine Q := mkA (fun i => match i with O => qv [0; -1; 0]%Q | S O => qv [1; 0; 0]%Q | _ => qv [0; 0; 1]%Q end) (qv [5; 6; 7]%Q).

Lemma turn_ok : similarity 0%Q Qplus Qmult Qeq 3 1%Q (a_mat q_turn) /\ (volume 0 Qplus Qmult Qminus (a_mat q_turn) == 1)%Q.
Proof.
  split; [|reflexivity]. intros i j Hi Hj.
  destruct i as [|[|[|i]]], j as [|[|[|j]]]; try lia; reflexivity.
Qed.

(** the stored normals are those of the face *)
Definition agree (m : mesh (pnu Q) (curve Q) nat) (f : nat) : Prop :=
  exists n vs, q_normal m f = Ok n /\ face_vertices m f = Ok vs /\
    forall v x, In v vs -> m_vertex m v = Ok x -> forall i, i < 3 -> (u_nor (v_pay x) i == n i)%Q.

Definition nrm (m : mesh (pnu Q) (curve Q) nat) (f i : nat) : option Q := match q_normal m f with Ok n => Some (n i) | _ => None end.
Definition nor (m : mesh (pnu Q) (curve Q) nat) (v i : nat) : option Q := match m_vertex m v with Ok x => Some (u_nor (v_pay x) i) | _ => None end.
Definition oq (a : option Q) (b : option Q) : bool := match a, b with Some x, Some y => Qeq_bool x y | _, _ => false end.
Lemma agree_b m f vs : face_vertices m f = Ok vs ->
  forallb (fun v => forallb (fun i => oq (nor m v i) (nrm m f i)) [0; 1; 2]) vs = true -> vs <> [] -> agree m f.
Proof.
  intros F B N. rewrite forallb_forall in B. destruct vs as [|v0 vs]; [congruence|].
  assert (H : exists n, q_normal m f = Ok n).
  { specialize (B v0 (or_introl eq_refl)). cbn [forallb] in B. apply andb_prop in B as [B _]. unfold oq, nrm in B.
    destruct (nor m v0 0); [|discriminate]. destruct (q_normal m f); try discriminate. eauto. }
  destruct H as (n & H). exists n, (v0 :: vs). split; [exact H|]. split; [exact F|].
  intros v x I X i Hi. specialize (B v I). rewrite forallb_forall in B. specialize (B i).
  unfold nor, nrm in B. rewrite X, H in B. apply Qeq_bool_eq, B.
  destruct i as [|[|[|i]]]; cbn; auto; lia.
Qed.
Lemma tri_agree : agree ex_tri 0.
Proof. eapply agree_b; [vm_compute; reflexivity|vm_compute; reflexivity|discriminate]. Qed.
Lemma tri_mirror : ~ agree (q_scale (qv [-1; 1; 1]%Q) ex_tri) 0.
Proof.
  intros (n & vs & N & F & A). set (m := q_scale _ _) in *.
  assert (F' : face_vertices m 0 = Ok [0; 2; 1]) by (vm_compute; reflexivity). rewrite F' in F. injection F as <-.
  destruct (m_vertex m 0) as [x| |] eqn:X; [|vm_compute in X; discriminate..].
  specialize (A 0 x (or_introl eq_refl) X 2 ltac:(lia)).
  assert (B : oq (nor m 0 2) (nrm m 0 2) = false) by (vm_compute; reflexivity).
  unfold nor, nrm in B. rewrite X, N in B. cbn [oq] in B. apply Qeq_bool_neq in B. exact (B A).
Qed.
Lemma tri_wf : wf ex_tri.
Proof. apply wfb_ok; vm_compute; reflexivity. Qed.
Theorem mirror_wrong : wf ex_tri /\ agree ex_tri 0 /\ ~ agree (q_scale (qv [-1; 1; 1]%Q) ex_tri) 0.
Proof. exact (conj tri_wf (conj tri_agree tri_mirror)). Qed.
Local Notation zscale := (u_scale 0%Z Z.add Z.mul 3).
Theorem scale_normals_wrong :
  ~ (forall s n d, dot 0%Z Z.add Z.mul 3 n d = 0%Z ->
       dot 0%Z Z.add Z.mul 3 (u_nor (zscale s (mkP d n d))) (u_pos (zscale s (mkP d n d))) = 0%Z) /\
  ~ (forall k n d, dot 0%Z Z.add Z.mul 3 n n = 1%Z ->
       dot 0%Z Z.add Z.mul 3 (u_nor (zscale (fun _ => k) (mkP d n d))) (u_nor (zscale (fun _ => k) (mkP d n d))) = 1%Z).
Proof.
  split; intros H.
  - specialize (H (fun i => match i with O => 2 | _ => 1 end)%Z (fun i => match i with O => 1 | S O => 1 | _ => 0 end)%Z
      (fun i => match i with O => 1 | S O => -1 | _ => 0 end)%Z eq_refl). vm_compute in H. discriminate.
  - specialize (H 2%Z (fun i => match i with O => 1 | _ => 0 end)%Z (fun _ => 0)%Z eq_refl). vm_compute in H. discriminate.
Qed.
Definition coord (r : res (nat -> Q)) (i : nat) : option Q := match r with Ok p => Some (p i) | _ => None end.
Lemma trans_ex : is_ring 0%Q 1%Q Qplus Qmult Qminus Qopp Qeq /\ wf ex_tri /\ lv (abs ex_tri) 0 = true /\ lvf (abs ex_tri) 0 = true /\
  similarity 0%Q Qplus Qmult Qeq 3 1%Q (a_mat q_turn) /\ (volume 0 Qplus Qmult Qminus (a_mat q_turn) == 1)%Q /\
  (forall x, (x == 0)%Q -> Qeq_bool x 0 = true) /\
  oq (coord (q_point ex_tri 0 (1 # 2)%Q) 0) (Some (1 # 2)%Q) = true /\
  oq (coord (q_point (q_transform q_turn ex_tri) 0 (1 # 2)%Q) 1) (Some (13 # 2)%Q) = true.
Proof.
  split; [exact Q_ring|]. split; [exact tri_wf|]. split; [vm_compute; reflexivity|]. split; [vm_compute; reflexivity|].
  split; [exact (proj1 turn_ok)|]. split; [exact (proj2 turn_ok)|]. split; [intros x H; apply Qeq_bool_iff, H|].
  split; vm_compute; reflexivity.
Qed.
