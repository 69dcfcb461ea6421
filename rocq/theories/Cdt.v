(** The Delaunay triangulation of a face: src/tesselate/delaunay.rs, over the real numbers. The constrained
    Delaunay triangulation itself comes from the spade crate; what is modelled is the choice of triangles. *)
From Coq Require Import List Arith Bool Reals.
From Verif Require Import Base DVec Mesh MeshMore Tess.
Import ListNotations.
Set Implicit Arguments.
Unset Strict Implicit.

Definition rvec2 := (R * R)%type.
(** [f64::atan2]: the angle of the vector (x, y) *)
Definition r_atan2 (y x : R) : R :=
  let a := acos (x / sqrt (x * x + y * y)) in if Rle_dec 0 y then a else (- a)%R.
(** src/math/vector.rs:79-103 [angle_between] for D = 2; scalar.rs:163-165 [is_about] *)
Definition angle_between (eps : R) (a b : rvec2) : R :=
  let la := sqrt (fst a * fst a + snd a * snd a) in let lb := sqrt (fst b * fst b + snd b * snd b) in
  if Rlt_dec (Rabs (la - 0)) eps then 0%R else if Rlt_dec (Rabs (lb - 0)) eps then 0%R
  else r_atan2 (fst a * snd b - snd a * fst b) (fst a * fst b + snd a * snd b).
(** src/math/vector2d.rs:27-29 *)
Definition angle_tri (eps : R) (o a b : rvec2) : R :=
  angle_between eps (fst a - fst o, snd a - snd o)%R (fst b - fst o, snd b - snd o)%R.
(** delaunay.rs:73-79 *)
Definition wrap_angle (x : R) : R := if Rlt_dec x 0 then (x + PI * 2)%R else x.
(** delaunay.rs:81-92 *)
Definition is_edge_inside (eps : R) (us : list (rvec2 * nat)) (v other : nat) : res bool :=
  let n := length us in
  let* prev := unwrap (nth_error us ((v + n - 1) mod n)) in
  let* next := unwrap (nth_error us ((v + 1) mod n)) in
  let* p := unwrap (nth_error us v) in
  let* o := unwrap (nth_error us other) in
  let triangle_angle := wrap_angle (angle_tri eps (fst p) (fst o) (fst prev)) in
  let boundary_angle := wrap_angle (angle_tri eps (fst p) (fst next) (fst prev)) in
  Ok (if Rle_dec triangle_angle boundary_angle then true else false).

Section Cdt.
  Context {VP EP FP : Type}.
  Implicit Types (m : mesh VP EP FP).
  (** the half-edge from [v] to [w], if any, decides: src/halfedge/face/mod.rs:105-111 *)
  Definition touches_at c m (f v w : nat) (k : res (option bool)) : res (option bool) :=
    let* s := shared_edge c m v w in
    match s with
    | None => k
    | Some e =>
        let* o := face_id m e in
        if negb (oeqb o (Some f)) then Ok (Some false)
        else let* b := is_boundary_self m e in Ok (Some (negb b))
    end.
  (** src/halfedge/face/mod.rs:98-126 [triangle_touches_boundary] *)
  Definition triangle_touches_boundary c m (f v0 v1 v2 : nat) : res (option bool) :=
    touches_at c m f v0 v1 (touches_at c m f v1 v2 (touches_at c m f v2 v0 (Ok None))).

  (** delaunay.rs:44-112, the closure: whether the triangle is inserted, and its vertices *)
  Definition choose c (eps : R) m (f : nat) (us : list (rvec2 * nat)) (t : tri3) : res (option tri3) :=
    let '(p0, p1, p2) := t in
    let* v0 := unwrap (nth_error us p0) in
    let* v1 := unwrap (nth_error us p1) in
    let* v2 := unwrap (nth_error us p2) in
    let out := (snd v0, snd v1, snd v2) in
    let* r := triangle_touches_boundary c m f (snd v0) (snd v1) (snd v2) in
    match r with
    | Some true => Ok (Some out)
    | Some false => Ok None
    | None =>
        let* is_inside := is_edge_inside eps us p0 p1 in
        let same v w := (let* b := is_edge_inside eps us v w in Ok (Bool.eqb b is_inside)) in
        dassert c (same p0 p1) (dassert c (same p1 p0) (dassert c (same p1 p2) (dassert c (same p2 p1)
        (dassert c (same p2 p0) (dassert c (same p0 p2)
        (Ok (if is_inside then Some out else None)))))))
    end.
  (** delaunay.rs:11-125: [before] and [after] stand for the debug assertions at the start and the end, [cdt] for
      inserting the points and the constraints and listing the inner faces *)
  Definition delaunay_triangulation c (eps : R) (cdt : list rvec2 -> res (list tri3)) (before : nat -> bool) (after : list tri3 -> bool)
      m (f : nat) (us : list (rvec2 * nat)) : res (list tri3) :=
    assert (negb (dbg c) || before f)
    (let* D := cdt (map fst us) in
     let* T := foldM (fun out t => let* o := choose c eps m f us t in Ok (match o with Some x => out ++ [x] | None => out end)) D [] in
     assert (negb (dbg c) || after T) (Ok T)).
End Cdt.
