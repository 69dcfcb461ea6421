(** Smooth normals: src/mesh/mesh/normals.rs, over the real numbers.

    Division by zero: the mean of no vectors is 0/0 in every coordinate, which no real number stands for. It
    enters as the parameter [nan]; its length is not zero, so [normalize] keeps it. *)
From Coq Require Import List Arith Bool Reals.
From Verif Require Import Base DVec Mesh MeshMore Alg Transform Buffer.
Import ListNotations.
Set Implicit Arguments.
Unset Strict Implicit.

Notation rvec := (nat -> R).
(** src/extensions/nalgebra/math/vec_n.rs:91-98 [normalize], in three dimensions *)
Definition r_len (v : rvec) : R := sqrt (v 0 * v 0 + v 1 * v 1 + v 2 * v 2).
Definition r_normalize (v : rvec) : rvec := if Req_EM_T (r_len v) 0 then v else fun i => (v i / r_len v)%R.

(** writing through [iter_mut().enumerate()] (src/util/deletable.rs:48-50): the element number [i] in iteration
    order gets [ns[i]] *)
Fixpoint assign {A B : Type} (f : A -> B -> A) (l : list (option (nat * A))) (ns : list B) : res (list (option (nat * A))) :=
  match l with
  | [] => Ok []
  | None :: r => let* r' := assign f r ns in Ok (None :: r')
  | Some (i, a) :: r =>
      match ns with
      | [] => Panic
      | n :: ns => let* r' := assign f r ns in Ok (Some (i, f a n) :: r')
      end
  end.

Section Normals.
  Context {FP : Type}.
  Notation mesh := (mesh (pnu R) (curve R) FP).
  Implicit Types (m : mesh).
  (** the debug assertion of [Face3d::normal], src/mesh/face/face3d.rs:91-95, per face *)
  Variable planar : nat -> bool.
  Variable nan : rvec.

  (** normals.rs:51 [Face3d::normal(f, self).normalize()] *)
  Definition unit_normal (c : cfg) m (f : nat) : res rvec :=
    assert (negb (dbg c) || planar f)
      (let* n := face_normal 0%R Rplus Rmult Rminus (-1 / 2)%R m f in Ok (r_normalize n)).

  (** src/halfedge/vertex/basics.rs:76-81 [faces] *)
  Definition v_faces (c : cfg) m (v : nat) : res (list nat) :=
    let* es := edges_out c m v in
    let* fs := mapM (g_face m) es in
    Ok (flat_map (fun o => match o with Some f => [f] | None => [] end) fs).

  (** src/math/vector.rs:73-76 [stable_mean], then [normalize] *)
  Definition mean (l : list rvec) : rvec :=
    match l with
    | [] => nan
    | _ => r_normalize (fun i => let s := kahan 0%R Rplus Rminus (map (fun v => v i) l) in (fst s / INR (snd s))%R)
    end.

  Definition set_nor (p : vertex (pnu R)) (n : rvec) : vertex (pnu R) :=
    mkV (v_edge p) (mkP (u_pos (v_pay p)) n (u_uv (v_pay p))).

  (** normals.rs:42-69 [generate_smooth_normals] *)
  Definition generate_smooth_normals (c : cfg) m : res mesh :=
    let* h := mapM (fun f => let* n := unit_normal c m f in Ok (f, n)) (face_ids m) in
    let* ns := mapM (fun v => let* fs := v_faces c m v in let* l := mapM (fun f => unwrap (hget h f)) fs in Ok (mean l))
      (vertex_ids m) in
    let* vs := assign set_nor (slots (verts m)) ns in
    Ok (mkM (edges m) (mkD vs (free (verts m))) (faces m)).
End Normals.
