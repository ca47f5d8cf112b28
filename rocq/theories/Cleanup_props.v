(** C61: profiler names. [text ++ [nul]] is the string literal given to [CleanupOutputString], [rm ++ [z]] the text to
    remove, whose last character is never read. *)
From Coq Require Import Ascii String.
From Verif Require Import Base Cleanup_model Cleanup_spec Cleanup_proofs.
Local Open Scope list_scope.

(** The result fits the array, there is no read or write outside of the arrays, and no double quote is left. *)
Theorem C61_no_quote : forall text rm z, exists data, cleanup (text ++ [nul]) (rm ++ [z]) = Ok data /\
  length data = length (text ++ [nul]) /\ length (c_string data) <= length text /\ ~ In """"%char data.
Proof.
  intros text rm z. eexists. split; [apply cleanup_scan|]. destruct (scan_stripped (S (length text)) rm text) as (r & Hr & E); [lia|].
  pose proof (scan_length (S (length text)) rm text) as Hl. split; [|split].
  - rewrite !app_length, repeat_length. change (length [nul]) with 1. lia.
  - assert (Hc : forall l, length (c_string l) <= length l). { induction l as [|a l IH]; cbn; [lia|]. destruct (Ascii.eqb a nul); cbn; lia. }
    assert (Hz : forall l l', length (c_string ((l ++ [nul]) ++ l')) <= length l).
    { induction l as [|a l IH]; intros l'; cbn; [lia|]. destruct (Ascii.eqb a nul); cbn; [lia|]. specialize (IH l'). lia. }
    rewrite E at 1. eapply Nat.le_trans; [apply Hz|]. rewrite E, app_length in Hl. cbn in Hl. lia.
  - intros H. apply in_app_or in H as [H|H].
    + apply scan_in in H as [H|(a & _ & H)]; [discriminate|]. symmetry in H. now apply unquote_not_quote in H.
    + apply repeat_spec in H. discriminate.
Qed.
Print Assumptions C61_no_quote.

(** The name is the text without what is to be removed, with apostrophes for quotes, if the text to be removed does not
    occur twice in a row. *)
Theorem C61_removed_partial : forall text rm z data, ~ In nul text -> ~ adjacent rm text -> cleanup (text ++ [nul]) (rm ++ [z]) = Ok data ->
  exists r, removed rm text r /\ (forall r', removed rm text r' -> r' = r) /\ c_string data = with_apostrophes r.
Proof.
  intros text rm z data Hn Ha E. rewrite cleanup_scan in E.
  match type of E with Ok ?d = _ => assert (Hd : data = d) by congruence end. clear E. subst data.
  destruct (scan_stripped (S (length text)) rm text) as (r & Hr & E); [lia|]. exists r.
  pose proof (stripped_removed _ _ _ Hr Ha) as H. split; [exact H|]. split; [intros r' H'; eapply removed_det; eauto|].
  rewrite E, <- app_assoc. cbn [app]. change (with_apostrophes r) with (map unquote r). apply c_string_app. intros c Hc. apply in_map_iff in Hc as (a & <- & Hi). rewrite unquote_nul.
  intros ->. apply Hn. eapply stripped_in; eauto.
Qed.
Print Assumptions C61_removed_partial.

(** Exactly, for all texts: after a removed text the next character is kept without a look at it. *)
Theorem C61_exact : forall text rm z data, ~ In nul text -> cleanup (text ++ [nul]) (rm ++ [z]) = Ok data ->
  exists r, stripped rm text r /\ c_string data = with_apostrophes r.
Proof.
  intros text rm z data Hn E. rewrite cleanup_scan in E.
  match type of E with Ok ?d = _ => assert (Hd : data = d) by congruence end. clear E. subst data.
  destruct (scan_stripped (S (length text)) rm text) as (r & Hr & E); [lia|]. exists r. split; [exact Hr|].
  rewrite E, <- app_assoc. cbn [app]. change (with_apostrophes r) with (map unquote r). apply c_string_app. intros c Hc. apply in_map_iff in Hc as (a & <- & Hi). rewrite unquote_nul.
  intros ->. apply Hn. eapply stripped_in; eauto.
Qed.
Print Assumptions C61_exact.

(** Two adjacent occurrences: the second one is kept. *)
Theorem C61_adjacent_refuted : exists text rm data, ~ In nul text /\ cleanup (text ++ [nul]) (rm ++ [nul]) = Ok data /\
  removed rm text (list_ascii_of_string "f") /\ c_string data = list_ascii_of_string "__cdecl f".
Proof.
  exists (list_ascii_of_string "__cdecl __cdecl f"), (list_ascii_of_string "__cdecl "). eexists.
  split; [cbn; intuition discriminate|]. split; [vm_compute; reflexivity|]. split; [|vm_compute; reflexivity].
  apply (rem_drop (list_ascii_of_string "__cdecl ") (list_ascii_of_string "__cdecl f")); [discriminate|].
  apply (rem_drop (list_ascii_of_string "__cdecl ") (list_ascii_of_string "f")); [discriminate|].
  apply rem_keep; [right; intros s' E; discriminate E|constructor].
Qed.
Print Assumptions C61_adjacent_refuted.

(** A use of the macro. *)
Example C61_use :
  match cleanup (list_ascii_of_string "void __cdecl f(""a"")" ++ [nul]) (list_ascii_of_string "__cdecl " ++ [nul]) with
  | Ok data => string_of_list_ascii (c_string data) = "void f('a')"%string
  | _ => False
  end /\ ~ adjacent (list_ascii_of_string "__cdecl ") (list_ascii_of_string "void __cdecl f").
Proof.
  split; [vm_compute; reflexivity|]. intros (a & b & E). apply (f_equal (@length ascii)) in E. rewrite !app_length in E. cbn in E. lia.
Qed.
