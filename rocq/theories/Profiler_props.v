(** C60: profiler traces. A schedule is a list of (thread, call): the thread makes one step, and starts the call if it
    is idle. *)
From Coq Require Import Ascii String.
From Verif Require Import Base Profiler_model Profiler_spec Profiler_proofs.
Local Open Scope list_scope.

(** Every closed trace, at every point of every schedule, is the header, complete records that were asked for, and the
    footer. *)
Theorem C60_traces : forall l f, In f (p_closed (p_exec l)) ->
  exists rs, f = header ++ concat (map show_result rs) ++ footer /\ forall r, In r rs -> exists t, In (t, CWrite r) l.
Proof.
  intros l f H. destruct (closed_well_formed _ f (pinv_exec l) H) as (rs & -> & Hr). exists rs. split.
  - unfold text_closed, text_open. now rewrite <- app_assoc.
  - intros r Hi. specialize (Hr r Hi). apply in_map_iff in Hr as ([t c] & E & Hx). cbn in E. subst c. exists t. now apply order_in.
Qed.
Print Assumptions C60_traces.

(** There is an order of the calls, that of the mutex, which keeps the order of the calls of each thread, such that the
    files are what running the calls one at a time in this order gives: no record is lost, duplicated or torn. *)
Theorem C60_one_at_a_time : forall l, let s := p_exec l in
  (forall t, map snd (filter (fun x => Nat.eqb (fst x) t) (p_order s)) ++ pending (p_pcs s t) = p_issued s t) /\
  (p_lock s = None -> let a := session_run (map snd (p_order s)) in
     p_stream s = option_map text_open (current a) /\ p_closed s = map text_closed (finished a)).
Proof.
  intros l s. pose proof (pinv_exec l) as I. split.
  - exact (pi_issued _ I).
  - intros H. exact (proj2 (pi_free _ I H)).
Qed.
Print Assumptions C60_one_at_a_time.

(** If names are bodies of JSON strings, the closed traces are JSON. *)
Theorem C60_json_partial : forall l, (forall t r, In (t, CWrite r) l -> string_body (r_name r)) ->
  forall f, In f (p_closed (p_exec l)) -> json f.
Proof.
  intros l Hn f H. destruct (closed_well_formed _ f (pinv_exec l) H) as (rs & -> & Hr). apply trace_json. intros r Hi.
  specialize (Hr r Hi). apply in_map_iff in Hr as ([t c] & E & Hx). cbn in E. subst c. apply (Hn t). now apply order_in.
Qed.
Print Assumptions C60_json_partial.

(** Without this hypothesis they may not be: names are not escaped. A backslash, as in the name of a function template
    instantiated with the character 0, gives an invalid escape. *)
Definition bad_name : result := Result (txt "f<'\000'>") 1 2 3.
Theorem C60_json_refuted : exists l f, In f (p_closed (p_exec l)) /\ ~ json f.
Proof.
  exists (repeat (0, CBegin true) 6 ++ repeat (1, CWrite bad_name) 6 ++ repeat (0, CEnd) 7). eexists. split.
  - vm_compute. now left.
  - intros H. apply scan_json in H. vm_compute in H. discriminate.
Qed.
Print Assumptions C60_json_refuted.

(** Two threads write in a session begun and ended by a third one. *)
Definition good_name (n : nat) : result := Result (txt "f") 1 2 (N.of_nat n).
Definition three_threads : list (nat * pcall) :=
  repeat (0, CBegin true) 6 ++
  [(1, CWrite (good_name 1)); (2, CWrite (good_name 2)); (1, CEnd); (2, CEnd); (2, CEnd); (1, CEnd); (2, CEnd); (2, CEnd); (2, CEnd); (1, CEnd); (1, CEnd); (1, CEnd); (1, CEnd)] ++
  repeat (0, CEnd) 7.
Example C60_three_threads :
  p_closed (p_exec three_threads) = [header ++ show_result (good_name 2) ++ show_result (good_name 1) ++ footer] /\
  (forall t r, In (t, CWrite r) three_threads -> string_body (r_name r)).
Proof.
  split; [vm_compute; reflexivity|]. intros t r H.
  assert (E : r_name r = txt "f").
  { unfold three_threads in H. apply in_app_or in H as [H|H]; [apply repeat_spec in H; discriminate|].
    apply in_app_or in H as [H|H]; [|apply repeat_spec in H; discriminate]. cbn [In] in H.
    repeat (destruct H as [H|H]; [first [discriminate H|injection H as <- <-; reflexivity]|]). destruct H. }
  rewrite E. now apply plainb_ok.
Qed.
