From Coq Require Import Ascii.
From Verif Require Import Base Cleanup_model Cleanup_spec.

(** The loop as a function of what remains of the text. *)
Fixpoint scan (n : nat) (rm s : list ascii) : list ascii :=
  match n with
  | O => []
  | S k =>
    let m := match_length s rm in
    let s' := if Nat.eqb m (length rm) then skipn m s else s in
    match s' with
    | [] => [nul]
    | c :: r => unquote c :: scan k rm r
    end
  end.

Lemma match_length_full s rm : match_length s rm = length rm <-> exists s', s = rm ++ s'.
Proof.
  revert s. induction rm as [|b r IH]; intros s.
  - split; [exists s; reflexivity|]. destruct s; reflexivity.
  - destruct s as [|a s]; cbn [match_length length].
    + split; [discriminate|]. intros [s' E]. discriminate.
    + destruct (Ascii.eqb_spec a b) as [->|Hne].
      * rewrite Nat.succ_inj_wd, IH. split; intros [s' E]; exists s'; [now rewrite E|]. now injection E.
      * split; [discriminate|]. intros [s' E]. injection E. congruence.
Qed.
Lemma match_length_le s rm : match_length s rm <= length s /\ match_length s rm <= length rm.
Proof.
  revert s. induction rm as [|b r IH]; intros [|a s]; cbn; try lia. destruct (Ascii.eqb a b); [|lia]. specialize (IH s). lia.
Qed.

Lemma scan_length n rm s : length (scan n rm s) <= S (length s).
Proof.
  revert s. induction n as [|k IH]; intros s; cbn [scan]; [cbn; lia|].
  set (s' := if Nat.eqb (match_length s rm) (length rm) then skipn (match_length s rm) s else s).
  assert (Hs : length s' <= length s). { unfold s'. destruct (Nat.eqb _ _); [rewrite skipn_length; lia|lia]. }
  destruct s' as [|c r]; cbn; [lia|]. specialize (IH r). cbn in Hs. lia.
Qed.

Lemma firstn_text (text : list ascii) z : firstn (length (text ++ [z]) - 1) (text ++ [z]) = text.
Proof. rewrite app_length. cbn. replace (length text + 1 - 1) with (length text + 0) by lia. rewrite firstn_app_2. cbn. apply app_nil_r. Qed.

Lemma skipn_nth (l : list ascii) : forall n x, nth_error l n = Some x -> skipn n l = x :: skipn (S n) l.
Proof. induction l as [|a l IH]; intros [|n] x E; cbn in *; try discriminate; [congruence|]. now apply IH. Qed.

Lemma skipn_skipn' (l : list ascii) : forall a b, skipn b (skipn a l) = skipn (a + b) l.
Proof. induction l as [|x l IH]; intros [|a] b; cbn; auto. now rewrite skipn_nil. Qed.

Lemma cleanup_loop_S k expr remove src : cleanup_loop (S k) expr remove src =
    if src <? length expr then
      let m := match_length (skipn src (firstn (length expr - 1) expr)) (firstn (length remove - 1) remove) in
      let src' := if Nat.eqb m (length remove - 1) then src + m else src in
      match nth_error expr src' with
      | None => UB
      | Some c => do l <- cleanup_loop k expr remove (S src'); Ok (unquote c :: l)
      end
    else Ok [].
Proof. reflexivity. Qed.

Lemma loop_scan text rm z : forall fuel src, src <= length text -> length text < src + fuel ->
  cleanup_loop (S fuel) (text ++ [nul]) (rm ++ [z]) src = Ok (scan (S (length text - src)) rm (skipn src text)).
Proof.
  induction fuel as [|k IH]; intros src Hs Hf; [lia|].
  assert (Hlen : length (text ++ [nul]) = S (length text)) by (rewrite app_length; cbn; lia).
  rewrite cleanup_loop_S. rewrite !firstn_text, Hlen. cbv zeta. replace (length (rm ++ [z]) - 1) with (length rm) by (rewrite app_length; cbn; lia).
  destruct (Nat.ltb_spec src (S (length text))); [|lia].
  set (s := skipn src text). set (m := match_length s rm).
  assert (Hls : length s = length text - src) by (unfold s; apply skipn_length).
  assert (Hm : m <= length s) by apply match_length_le.
  set (src' := if Nat.eqb m (length rm) then src + m else src).
  set (s' := if Nat.eqb m (length rm) then skipn m s else s).
  assert (Hs' : s' = skipn src' text).
  { unfold s', src', s. destruct (Nat.eqb m (length rm)); auto. apply skipn_skipn'. }
  assert (Hsrc : src <= src' <= length text) by (unfold src'; destruct (Nat.eqb m (length rm)); lia).
  cbn [scan]. fold scan. fold m. fold s'. destruct (nth_error (text ++ [nul]) src') as [c|] eqn:En.
  2: { apply nth_error_None in En. lia. }
  destruct (Nat.eq_dec src' (length text)) as [El|Hne].
  - rewrite El in En. rewrite nth_error_app2, Nat.sub_diag in En by lia. injection En as <-.
    assert (Hnil : s' = []) by (rewrite Hs', El; apply skipn_all). rewrite Hnil.
    rewrite cleanup_loop_S, Hlen. destruct (Nat.ltb_spec (S src') (S (length text))); [lia|]. reflexivity.
  - rewrite nth_error_app1 in En by lia. pose proof (skipn_nth _ _ _ En) as Hk. rewrite Hs', Hk.
    rewrite IH by lia. cbn [bind]. f_equal. f_equal.
    (* the amount of fuel of scan does not matter *)
    assert (Hfuel : forall n1 n2 t, length t < n1 -> length t < n2 -> scan n1 rm t = scan n2 rm t).
    { clear. induction n1 as [|n1 IH]; intros [|n2] t H1 H2; try lia. cbn [scan].
      set (t' := if Nat.eqb (match_length t rm) (length rm) then skipn (match_length t rm) t else t).
      assert (Ht : length t' <= length t). { unfold t'. destruct (Nat.eqb _ _); [rewrite skipn_length; lia|lia]. }
      destruct t' as [|c r]; auto. f_equal. cbn in Ht. apply IH; lia. }
    apply Hfuel; rewrite skipn_length; lia.
Qed.

(** Every character copied is in the text. *)
Lemma scan_in n rm s c : In c (scan n rm s) -> c = nul \/ exists a, In a s /\ c = unquote a.
Proof.
  revert s. induction n as [|k IH]; intros s; cbn [scan]; [easy|].
  set (s' := if Nat.eqb (match_length s rm) (length rm) then skipn (match_length s rm) s else s).
  assert (Hs : forall a, In a s' -> In a s).
  { unfold s'. destruct (Nat.eqb _ _); auto. intros a Ha. rewrite <- (firstn_skipn (match_length s rm) s). apply in_or_app. now right. }
  destruct s' as [|a r]; cbn; [intros [<-|[]]; auto|]. intros [<-|H].
  - right. exists a. split; auto. apply Hs. now left.
  - destruct (IH _ H) as [|(b & Hb & E)]; auto. right. exists b. split; auto. apply Hs. now right.
Qed.

Lemma unquote_not_quote c : unquote c <> quote.
Proof. unfold unquote. destruct (Ascii.eqb_spec c quote); [discriminate|auto]. Qed.
Lemma unquote_nul c : unquote c = nul <-> c = nul.
Proof. unfold unquote. destruct (Ascii.eqb_spec c quote) as [->|]; split; intros H; try discriminate; auto. Qed.

(** The value of [cleanup] on string literals. *)
Lemma cleanup_scan text rm z : cleanup (text ++ [nul]) (rm ++ [z]) =
  Ok (scan (S (length text)) rm text ++ repeat nul (S (length text) - length (scan (S (length text)) rm text))).
Proof.
  unfold cleanup. assert (Hlen : length (text ++ [nul]) = S (length text)) by (rewrite app_length; cbn; lia).
  rewrite Hlen. rewrite loop_scan by lia. cbn [bind]. rewrite Nat.sub_0_r, skipn_O.
  destruct (Nat.leb_spec (length (scan (S (length text)) rm text)) (S (length text))) as [|H]; auto.
  pose proof (scan_length (S (length text)) rm text). lia.
Qed.

Lemma c_string_app l l' : (forall c, In c l -> c <> nul) -> c_string (l ++ nul :: l') = l.
Proof.
  induction l as [|a l IH]; intros H; auto. cbn. destruct (Ascii.eqb_spec a nul) as [->|]; [destruct (H nul); auto; now left|].
  f_equal. apply IH. intros c Hc. apply H. now right.
Qed.

Lemma skipn_app_len (l l' : list ascii) : skipn (length l) (l ++ l') = l'.
Proof. induction l; auto. Qed.

Lemma scan_stripped n rm s : length s < n -> exists r, stripped rm s r /\ scan n rm s = map unquote r ++ [nul].
Proof.
  revert s. induction n as [|k IH]; intros s Hn; [lia|]. cbn [scan].
  destruct (Nat.eqb_spec (match_length s rm) (length rm)) as [E|E].
  - rewrite E. apply match_length_full in E as [s' ->]. rewrite skipn_app_len. rewrite app_length in Hn.
    destruct s' as [|c t].
    + destruct rm as [|b rm].
      * exists []. split; [constructor|reflexivity].
      * exists []. split; [rewrite app_nil_r; now constructor|reflexivity].
    + destruct (IH t) as (r & Hr & Es); [cbn in Hn; lia|]. exists (c :: r). split; [|cbn; now rewrite Es].
      destruct rm as [|b rm]; [cbn; apply str_keep; auto|now constructor].
  - destruct s as [|c t].
    + exists []. split; [constructor|reflexivity].
    + destruct (IH t) as (r & Hr & Es); [cbn in Hn; lia|]. exists (c :: r). split; [|cbn; now rewrite Es].
      apply str_keep; auto. right. intros s' Hs'. apply E. apply match_length_full. eauto.
Qed.

Lemma stripped_removed rm s r : stripped rm s r -> ~ adjacent rm s -> removed rm s r.
Proof.
  induction 1 as [|Hn|c s r Hn Hr IH|c s r Hc Hr IH]; intros Ha.
  - constructor.
  - rewrite <- (app_nil_r rm) at 2. apply rem_drop; auto. constructor.
  - apply rem_drop; auto. apply rem_keep.
    + right. intros s' E. apply Ha. exists [], s'. now rewrite E.
    + apply IH. intros (a & b & E). apply Ha. exists (rm ++ c :: a), b. rewrite E. now rewrite <- app_assoc.
  - apply rem_keep; auto. apply IH. intros (a & b & E). apply Ha. exists (c :: a), b. now rewrite E.
Qed.
Lemma stripped_in rm s r c : stripped rm s r -> In c r -> In c s.
Proof.
  induction 1 as [|Hn|d s r Hn Hr IH|d s r Hc Hr IH]; intros Hi; try easy.
  - apply in_or_app. right. destruct Hi as [->|Hi]; [now left|right; auto].
  - destruct Hi as [->|Hi]; [now left|right; auto].
Qed.
Lemma removed_det rm s r : removed rm s r -> forall r', removed rm s r' -> r = r'.
Proof.
  induction 1 as [|s r Hn Hr IH|c s r Hc Hr IH]; intros r' H'.
  - remember [] as e eqn:Ee in H'. destruct H' as [|s0 r0 Hn' Hr'|c s0 r0 Hc' Hr']; [auto| |discriminate].
    apply app_eq_nil in Ee as [Ee _]. congruence.
  - remember (rm ++ s) as e eqn:Ee in H'. destruct H' as [|s0 r0 Hn' Hr'|c s0 r0 Hc' Hr'].
    + symmetry in Ee. apply app_eq_nil in Ee as [Ee _]. congruence.
    + apply app_inv_head in Ee. subst. auto.
    + exfalso. destruct Hc' as [|Hc']; [congruence|]. eapply Hc'. exact Ee.
  - remember (c :: s) as e eqn:Ee in H'. destruct H' as [|s0 r0 Hn' Hr'|c' s0 r0 Hc' Hr']; [discriminate| |].
    + exfalso. destruct Hc as [|Hc]; [congruence|]. eapply Hc. symmetry. exact Ee.
    + injection Ee as -> ->. f_equal. auto.
Qed.
