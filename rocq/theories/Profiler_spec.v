(** Profiling sessions, one call at a time; and JSON. *)
From Coq Require Import Ascii String.
From Verif Require Import Base Profiler_model.
Local Open Scope list_scope.

(** A session is the list of its records. *)
Record sessions := Sessions { current : option (list result); finished : list (list result) }.
Definition no_session : sessions := Sessions None [].
Definition close (a : sessions) : list (list result) := finished a ++ match current a with Some l => [l] | None => [] end.
Definition session_step (a : sessions) (c : pcall) : sessions :=
  match c with
  | CWrite r => Sessions (option_map (fun l => l ++ [r]) (current a)) (finished a)
  | CBegin true => Sessions (Some []) (close a)
  | CBegin false => Sessions None (close a)
  | CEnd => Sessions None (close a)
  end.
Definition session_run (l : list pcall) : sessions := fold_left session_step l no_session.

(** The text of a session that is open, and of one that is closed. *)
Definition text_open (l : list result) : bytes := header ++ concat (map show_result l).
Definition text_closed (l : list result) : bytes := text_open l ++ footer.

(** JSON texts (RFC 8259), without exponents and fractions in numbers. *)
Definition is_space (c : ascii) : Prop := c = " "%char \/ c = "010"%char \/ c = "013"%char \/ c = "009"%char.
Definition is_digit (c : ascii) : Prop := 48 <= nat_of_ascii c <= 57.
Definition is_hex (c : ascii) : Prop := is_digit c \/ 65 <= nat_of_ascii c <= 70 \/ 97 <= nat_of_ascii c <= 102.
Definition backslash : ascii := "092"%char.
(** A character that stands for itself in a string. *)
Definition is_plain (c : ascii) : Prop := c <> dquote /\ c <> backslash /\ 32 <= nat_of_ascii c.
Inductive string_body : bytes -> Prop :=
| sb_nil : string_body []
| sb_plain c s : is_plain c -> string_body s -> string_body (c :: s)
| sb_escape c s : In c (dquote :: backslash :: txt "/bfnrt") -> string_body s -> string_body (backslash :: c :: s)
| sb_unicode a b c d s : is_hex a -> is_hex b -> is_hex c -> is_hex d -> string_body s ->
    string_body (backslash :: "u"%char :: a :: b :: c :: d :: s).
Inductive number : bytes -> Prop :=
| n_zero : number (txt "0")
| n_nat c s : is_digit c -> c <> "0"%char -> Forall is_digit s -> number (c :: s)
| n_minus s : number s -> hd "-"%char s <> "-"%char -> number ("-"%char :: s).
Inductive json : bytes -> Prop :=
| j_space c s : is_space c -> json s -> json (c :: s)
| j_number s : number s -> json s
| j_string s : string_body s -> json (dquote :: s ++ [dquote])
| j_array0 : json (txt "[]")
| j_array l : elements l -> json (txt "[" ++ l ++ txt "]")
| j_object0 : json (txt "{}")
| j_object l : members l -> json (txt "{" ++ l ++ txt "}")
with elements : bytes -> Prop :=
| e_one v : json v -> elements v
| e_more v l : json v -> elements l -> elements (v ++ txt "," ++ l)
with members : bytes -> Prop :=
| m_one k v : string_body k -> json v -> members (dquote :: k ++ dquote :: txt ":" ++ v)
| m_more k v l : string_body k -> json v -> members l -> members (dquote :: k ++ dquote :: txt ":" ++ v ++ txt "," ++ l).
