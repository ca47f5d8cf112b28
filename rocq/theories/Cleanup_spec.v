(** Removing a text from a text. *)
From Coq Require Import Ascii.
From Verif Require Import Base.

(** [removed rm s r]: [r] is [s] without the occurrences of [rm] met when reading from left to right. *)
Inductive removed (rm : list ascii) : list ascii -> list ascii -> Prop :=
| rem_nil : removed rm [] []
| rem_drop s r : rm <> [] -> removed rm s r -> removed rm (rm ++ s) r
| rem_keep c s r : (rm = [] \/ forall s', c :: s <> rm ++ s') -> removed rm s r -> removed rm (c :: s) (c :: r).

(** Quotes become apostrophes. *)
Definition with_apostrophes : list ascii -> list ascii := map (fun c => if Ascii.eqb c """"%char then "'"%char else c).

(** [rm] occurs twice in a row in [s]. *)
Definition adjacent (rm s : list ascii) : Prop := exists a b, s = a ++ rm ++ rm ++ b.

(** Exact description: after a match the next character is copied without looking. *)
Inductive stripped (rm : list ascii) : list ascii -> list ascii -> Prop :=
| str_end : stripped rm [] []
| str_last : rm <> [] -> stripped rm rm []
| str_skip c s r : rm <> [] -> stripped rm s r -> stripped rm (rm ++ c :: s) (c :: r)
| str_keep c s r : (rm = [] \/ forall s', c :: s <> rm ++ s') -> stripped rm s r -> stripped rm (c :: s) (c :: r).
