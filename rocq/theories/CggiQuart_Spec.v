(** What the chunked arithmetic should compute. *)
From Coq Require Import ZArith List Bool.
From Verif Require Import CggiQuart_Model.
Import ListNotations.
Open Scope Z_scope.

(** the number in a list of chunks, 8 bits apart *)
Fixpoint decode (cs : list Z) : Z :=
  match cs with [] => 0 | c :: cs' => c + 256 * decode cs' end.
Definition byte (c : Z) : Prop := 0 <= c < 256.

(** the arith dialect: unsigned representatives *)
Fixpoint sem (e : expr) : Z :=
  match e with
  | EIn w cs => decode cs mod 2 ^ w
  | EConst w v => v mod 2 ^ w
  | EAdd a b => (sem a + sem b) mod 2 ^ width a
  | EMul a b => (sem a * sem b) mod 2 ^ width a
  | EExtU w a => sem a
  | EExtS w a => (if sem a <? 2 ^ (width a - 1) then sem a else sem a - 2 ^ width a) mod 2 ^ w
  end.

(** the two low bytes *)
Definition byte0 (v : Z) : Z := v mod 256.
Definition byte1 (v : Z) : Z := (v / 256) mod 256.

(** expressions whose lowering has proper bytes as chunks *)
Inductive canonical : expr -> Prop :=
| K_in w cs : 1 <= w <= 64 -> 8 * (Z.of_nat (length cs) - 1) < w <= 8 * Z.of_nat (length cs) ->
    Forall byte cs -> decode cs < 2 ^ w -> canonical (EIn w cs)
| K_const w v : 1 <= w <= 64 -> (8 | w) -> 0 <= v < 2 ^ w ->
    (forall i, 0 <= i -> Z.testbit v (8 * i + 7) = false) -> canonical (EConst w v)
| K_ext w a : canonical a -> width a <= w <= 64 -> canonical (EExtU w a).

(** expressions that are computed correctly *)
Inductive supported : expr -> Prop :=
| S_canonical e : canonical e -> supported e
| S_add a b : supported a -> supported b -> width a = width b -> supported (EAdd a b)
| S_mul a b : canonical a -> canonical b -> width a = width b -> 25 <= width a <= 32 ->
    byte0 (sem a) * byte1 (sem b) + byte1 (sem a) * byte0 (sem b) < 65536 -> supported (EMul a b)
| S_scale a b : supported a -> canonical b -> width a = width b -> 25 <= width a <= 32 ->
    byte0 (sem b) + byte1 (sem b) <= 128 -> supported (EMul a b)
| S_scale_l a b : supported a -> canonical b -> width b = width a -> 25 <= width b <= 32 ->
    byte0 (sem b) + byte1 (sem b) <= 128 -> supported (EMul b a).
