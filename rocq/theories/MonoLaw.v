(** What the sweep needs to know about a monotone triangulator. *)
From Coq Require Import List Arith Bool Lia ZArith.
From Verif Require Import Base Tess Monotone TriSpec TriFacts BufferSpec BufferProofs MonoSpec LinearProofs.
Import ListNotations.
Set Implicit Arguments.
Unset Strict Implicit.
Local Open Scope nat_scope.

(** history of one chain: start vertex, insertions, the oriented boundary and the number of the
    triangles it has emitted so far *)
Record gc := mkG { g_v : nat; g_ops : list (bool * nat); g_E : nat -> nat -> Z; g_k : Z }.
Definition lastL (c : gc) : nat := last (side_of true (g_ops c)) (g_v c).
Definition lastR (c : gc) : nat := last (side_of false (g_ops c)) (g_v c).
Definition g_path (c : gc) : list nat := grow [g_v c] (g_ops c).
Definition g_poly (c : gc) : list nat := chain_poly (g_v c) (g_ops c).
Definition zlen {A} (l : list A) : Z := Z.of_nat (length l).

Record lawful (M : mono) (idx : nat -> nat) (pre : list nat) := mkLaw {
  good : list (nat * nat * nat) -> Prop;
  inv : m_st M -> gc -> nat -> Prop;
  law_nil : good [];
  law_new : forall v len, inv (m_new M v) (mkG v [] (fun _ _ => 0%Z) 0%Z) len;
  law_grow : forall s c len len', inv s c len -> len <= len' -> inv s c len';
  law_op : forall T s c b x s' ix', good T -> inv s c (length T) ->
    @m_step M (s, pre ++ flatten T) (b, x) = Ok (s', ix') ->
    exists T' c', ix' = pre ++ flatten T' /\ good T' /\ inv s' c' (length T') /\ length T <= length T' /\
      g_v c' = g_v c /\ g_ops c' = g_ops c ++ [(b, x)] /\
      (forall u w, (tnet T' u w - g_E c' u w = tnet T u w - g_E c u w)%Z) /\
      (zlen T' - g_k c' = zlen T - g_k c)%Z;
  law_finish : forall T s c ix', good T -> inv s c (length T) -> g_ops c <> [] ->
    @m_finish M s (pre ++ flatten T) = Ok ix' ->
    exists T', ix' = pre ++ flatten T' /\ good T' /\ length T <= length T' /\
      (forall u w, (tnet T' u w - tnet T u w = net (poly_edges (map idx (g_poly c))) u w - g_E c u w)%Z) /\
      (zlen T' - zlen T = zlen (g_poly c) - 2 - g_k c)%Z;
  law_right : forall s c len, inv s c len -> @m_is_right M s = true ->
    g_ops c = [] \/ exists l x, g_ops c = l ++ [(false, x)];
  law_opp : forall s c len t, inv s c len -> @m_is_right M s = false -> @m_last_opposite M s = Ok t -> t = lastR c
}.

Lemma side_snoc b c x ops : side_of b (ops ++ [(c, x)]) = side_of b ops ++ (if Bool.eqb c b then [x] else []).
Proof. unfold side_of. rewrite filter_app, map_app. cbn. destruct (Bool.eqb c b); reflexivity. Qed.
Lemma last_snoc A (l : list A) x d : last (l ++ [x]) d = x.
Proof. induction l as [|a l IH]; [reflexivity|]. cbn. rewrite IH. destruct l; reflexivity. Qed.
