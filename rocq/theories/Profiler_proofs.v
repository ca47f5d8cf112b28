From Coq Require Import Ascii String Decimal DecimalFacts DecimalN.
From Verif Require Import Base Profiler_model Profiler_spec.
Local Open Scope list_scope.

(** * The text of a trace follows the calls in the order of the mutex *)
Definition in_lock (p : ppc) : bool := match p with PIdle | PBuild _ | PLock _ _ => false | _ => true end.
Lemma pset_same {A} (f : nat -> A) t v : pset f t v t = v.
Proof. unfold pset. now rewrite Nat.eqb_refl. Qed.
Lemma pset_other {A} (f : nat -> A) t v u : u <> t -> pset f t v u = f u.
Proof. unfold pset. destruct (Nat.eqb_spec u t); easy. Qed.

Definition is_some {A} (o : option A) : bool := match o with Some _ => true | None => false end.
Definition agrees (session : bool) (stream : option bytes) (closed : list bytes) (a : sessions) : Prop :=
  session = is_some (current a) /\ stream = option_map text_open (current a) /\ closed = map text_closed (finished a).
Definition json_of (c : pcall) (json : bytes) : Prop := match c with CWrite r => json = show_result r | _ => True end.
Definition call_of (next : option bool) : pcall := match next with Some ok => CBegin ok | None => CEnd end.

(** What holds while call [c] is under the mutex, [a] being the sessions before it. *)
Definition flight (session : bool) (stream : option bytes) (closed : list bytes) (a : sessions) (c : pcall) (p : ppc) : Prop :=
  match p with
  | PIdle | PBuild _ | PLock _ _ => False
  | PSession k json => k = c /\ json_of c json /\ agrees session stream closed a
  | POut json => exists r, c = CWrite r /\ json = show_result r /\ agrees session stream closed a /\ session = true
  | PFooter next => c = call_of next /\ agrees session stream closed a /\ session = true
  | PClose next => c = call_of next /\ exists l, current a = Some l /\ session = true /\ stream = Some (text_closed l) /\ closed = map text_closed (finished a)
  | PDelete next => c = call_of next /\ session = true /\ stream = None /\ closed = map text_closed (close a)
  | POpen ok => c = CBegin ok /\ session = false /\ stream = None /\ closed = map text_closed (close a)
  | PHeader => c = CBegin true /\ session = true /\ stream = Some [] /\ closed = map text_closed (close a)
  | PUnlock => agrees session stream closed (session_step a c)
  end.

Definition pending (p : ppc) : list pcall := match p with PBuild r => [CWrite r] | PLock c _ => [c] | _ => [] end.
Definition calls_of (t : nat) (l : list (nat * pcall)) : list pcall := map snd (filter (fun x => Nat.eqb (fst x) t) l).

Record pinv (s : pstate) : Prop := {
  pi_mutex : forall t, p_lock s = Some t <-> in_lock (p_pcs s t) = true;
  pi_free : p_lock s = None -> agrees (p_session s) (p_stream s) (p_closed s) (session_run (map snd (p_order s)));
  pi_held : forall t, p_lock s = Some t -> exists o c, p_order s = o ++ [(t, c)] /\
    flight (p_session s) (p_stream s) (p_closed s) (session_run (map snd o)) c (p_pcs s t);
  pi_json : forall t c json, p_pcs s t = PLock c json -> json_of c json;
  pi_issued : forall t, calls_of t (p_order s) ++ pending (p_pcs s t) = p_issued s t
}.

Lemma pinv_init : pinv p_init.
Proof. split; cbn; try easy. all: intros t; split; discriminate. Qed.

Lemma session_run_app l c : session_run (l ++ [c]) = session_step (session_run l) c.
Proof. unfold session_run. now rewrite fold_left_app. Qed.

Lemma close_some a l : current a = Some l -> map text_closed (close a) = map text_closed (finished a) ++ [text_closed l].
Proof. unfold close. intros ->. now rewrite map_app. Qed.

Ltac pwho t u := destruct (Nat.eq_dec u t) as [->|?]; [rewrite ?pset_same|rewrite ?pset_other by assumption].

(** A step under the mutex that keeps it. *)
Lemma held_step s t session stream closed pc : pinv s -> in_lock (p_pcs s t) = true -> in_lock pc = true ->
  (forall a c, flight (p_session s) (p_stream s) (p_closed s) a c (p_pcs s t) -> flight session stream closed a c pc) ->
  pinv (PState (p_lock s) session stream closed (pset (p_pcs s) t pc) (p_order s) (p_issued s)).
Proof.
  intros I Hh Hp Hf. apply (pi_mutex s I) in Hh as Hl. split; cbn [p_lock p_session p_stream p_closed p_pcs p_order p_issued].
  - intros u. pwho t u; [tauto|apply I].
  - congruence.
  - intros u Hu. assert (u = t) by congruence. subst u. destruct (pi_held s I t Hl) as (o & c & E & F). exists o, c. split; auto.
    rewrite pset_same. auto.
  - intros u c json. pwho t u; [intros ->; discriminate|apply I].
  - intros u. pwho t u; [|apply I]. rewrite <- (pi_issued s I t). f_equal. destruct (p_pcs s t), pc; try discriminate; reflexivity.
Qed.

Lemma pinv_step s x : pinv s -> pinv (p_step s x).
Proof.
  intros I. destruct x as [t c]. unfold p_step. destruct (p_pcs s t) as [|r|k json|k json|json|next|next|next|ok| |] eqn:E.
  - (* PIdle *) assert (Hl : p_lock s <> Some t) by (intros H; apply (pi_mutex s I) in H; rewrite E in H; discriminate).
    split; cbn [p_lock p_session p_stream p_closed p_pcs p_order p_issued].
    + intros u. pwho t u; [|apply I]. split; [easy|]. destruct c; discriminate.
    + apply I.
    + intros u Hu. pwho t u; [easy|]. now apply I.
    + intros u k json. pwho t u; [|apply I]. destruct c; intros H; try discriminate; injection H as <- <-; exact Logic.I.
    + intros u. pwho t u; [|apply I]. rewrite <- (pi_issued s I t), E. cbn [pending]. rewrite app_nil_r. destruct c; reflexivity.
  - (* PBuild *) assert (Hl : p_lock s <> Some t) by (intros H; apply (pi_mutex s I) in H; rewrite E in H; discriminate).
    split; cbn [p_lock p_session p_stream p_closed p_pcs p_order p_issued].
    + intros u. pwho t u; [|apply I]. split; [easy|discriminate].
    + apply I.
    + intros u Hu. pwho t u; [easy|]. now apply I.
    + intros u k json. pwho t u; [|apply I]. intros H. injection H as <- <-. reflexivity.
    + intros u. pwho t u; [|apply I]. rewrite <- (pi_issued s I t), E. reflexivity.
  - (* PLock *) destruct (p_lock s) as [u|] eqn:El; [exact I|].
    split; cbn [p_lock p_session p_stream p_closed p_pcs p_order p_issued].
    + intros u. pwho t u; [easy|]. rewrite <- (pi_mutex s I). rewrite El. split; congruence.
    + discriminate.
    + intros u Hu. injection Hu as <-. exists (p_order s), k. split; auto. rewrite pset_same. cbn [flight]. split; auto.
      split; [apply (pi_json s I _ _ _ E)|]. now apply (pi_free s I).
    + intros u k' json'. pwho t u; [discriminate|apply I].
    + intros u. unfold calls_of. rewrite filter_app, map_app. cbn [filter fst]. destruct (Nat.eqb_spec t u) as [->|Hne].
      * rewrite pset_same. cbn [pending map snd]. rewrite app_nil_r. rewrite <- (pi_issued s I u), E. reflexivity.
      * rewrite pset_other by auto. cbn [map]. rewrite app_nil_r. apply I.
  - (* PSession *) apply held_step; auto; [now rewrite E|destruct k as [|[]|], (p_session s); reflexivity|].
    rewrite E. intros a c' (<- & Hj & (H1 & H2 & H3)). destruct k as [r|ok|]; destruct (p_session s) eqn:Es; cbn [flight].
    + exists r. cbn in Hj. unfold agrees. rewrite <- H1. repeat (split; auto).
    + unfold agrees. cbn [session_step current finished]. destruct (current a); [discriminate|]. auto.
    + unfold agrees. rewrite <- H1. repeat (split; auto).
    + split; auto. split; auto. unfold close. destruct (current a); [discriminate|]. rewrite app_nil_r. auto.
    + unfold agrees. rewrite <- H1. repeat (split; auto).
    + unfold agrees. cbn [session_step current finished]. unfold close. destruct (current a); [discriminate|]. rewrite app_nil_r. auto.
  - (* POut *) apply held_step; auto; [now rewrite E|]. rewrite E. cbn [flight]. intros a c' (r & -> & -> & (H1 & H2 & H3) & Hs).
    unfold agrees. cbn [session_step current finished]. rewrite H1 in *. rewrite H2. destruct (current a) as [l|]; [|discriminate]. cbn [option_map is_some].
    unfold text_open. rewrite map_app, concat_app. cbn [map concat]. rewrite app_nil_r, <- app_assoc. auto.
  - (* PFooter *) apply held_step; auto; [now rewrite E|]. rewrite E. cbn [flight]. intros a c' (-> & (H1 & H2 & H3) & Hs). split; auto.
    rewrite H2. destruct (current a) as [l|]; [|cbn in H1; congruence]. exists l. repeat (split; auto).
  - (* PClose *) apply held_step; auto; [now rewrite E|]. rewrite E. cbn [flight]. intros a c' (-> & l & H1 & H2 & H3 & H4). split; auto.
    rewrite H3. rewrite (close_some a l H1), H4. auto.
  - (* PDelete *) apply held_step; auto; [now rewrite E|destruct next; reflexivity|]. rewrite E. cbn [flight]. intros a c' (-> & H1 & H2 & H3).
    destruct next as [ok|]; cbn [flight call_of]; auto. unfold agrees. cbn. auto.
  - (* POpen *) destruct ok; apply held_step; auto; try now rewrite E.
    + rewrite E. cbn [flight]. intros a c' (-> & H1 & H2 & H3). auto.
    + rewrite E. cbn [flight]. intros a c' (-> & H1 & H2 & H3). unfold agrees. cbn. auto.
  - (* PHeader *) apply held_step; auto; [now rewrite E|]. rewrite E. cbn [flight]. intros a c' (-> & H1 & H2 & H3).
    rewrite H2. unfold agrees. cbn [session_step current finished is_some option_map app]. unfold text_open. cbn [map concat]. rewrite app_nil_r. auto.
  - (* PUnlock *) assert (Hl : p_lock s = Some t) by (apply (pi_mutex s I); now rewrite E).
    destruct (pi_held s I t Hl) as (o & c' & Eo & F). rewrite E in F. cbn [flight] in F.
    split; cbn [p_lock p_session p_stream p_closed p_pcs p_order p_issued].
    + intros u. pwho t u; [split; discriminate|]. rewrite <- (pi_mutex s I). split; [discriminate|congruence].
    + intros _. rewrite Eo, map_app. cbn [map snd]. rewrite session_run_app. exact F.
    + discriminate.
    + intros u k json. pwho t u; [discriminate|apply I].
    + intros u. pwho t u; [|apply I]. rewrite <- (pi_issued s I t), E. reflexivity.
Qed.

Lemma pinv_exec l : pinv (p_exec l).
Proof.
  unfold p_exec. assert (H : forall s, pinv s -> pinv (fold_left p_step l s)).
  { induction l as [|x l IH]; intros s I; auto. apply IH. now apply pinv_step. }
  apply H, pinv_init.
Qed.

(** The records of the sessions come from the calls. *)
Definition recorded (a : sessions) (r : result) : Prop := exists l, (current a = Some l \/ In l (finished a)) /\ In r l.
Lemma close_in a l : In l (close a) -> In l (finished a) \/ current a = Some l.
Proof.
  unfold close. intros H. apply in_app_or in H as [|H]; auto. destruct (current a) as [l'|]; [|easy]. destruct H as [<-|[]]; auto.
Qed.
Lemma session_step_in a c r : recorded (session_step a c) r -> recorded a r \/ c = CWrite r.
Proof.
  intros (l & H & Hr). destruct c as [r'|[]|]; cbn [session_step current finished] in H.
  - destruct H as [H|H].
    + destruct (current a) as [l'|] eqn:E; cbn in H; [|discriminate]. injection H as <-. apply in_app_or in Hr as [Hr|[->|[]]]; auto.
      left. exists l'. auto.
    + left. exists l. auto.
  - destruct H as [H|H]; [injection H as <-; easy|]. apply close_in in H. left. exists l. tauto.
  - destruct H as [H|H]; [easy|]. apply close_in in H. left. exists l. tauto.
  - destruct H as [H|H]; [easy|]. apply close_in in H. left. exists l. tauto.
Qed.
Lemma session_run_in l r : recorded (session_run l) r -> In (CWrite r) l.
Proof.
  induction l as [|c l IH] using rev_ind; intros H.
  - destruct H as (x & [H|H] & _); easy.
  - rewrite session_run_app in H. apply in_or_app. apply session_step_in in H as [H| ->]; [auto|right; now left].
Qed.

Lemma closed_well_formed s f : pinv s -> In f (p_closed s) ->
  exists l, f = text_closed l /\ forall r, In r l -> In (CWrite r) (map snd (p_order s)).
Proof.
  intros I Hi.
  assert (Hm : forall o a, (forall x, In x o -> In x (p_order s)) -> a = session_run (map snd o) ->
    (p_closed s = map text_closed (finished a) \/ p_closed s = map text_closed (close a)) ->
    exists l, f = text_closed l /\ forall r, In r l -> In (CWrite r) (map snd (p_order s))).
  { intros o a Ho -> E.
    assert (Hx : exists l, f = text_closed l /\ (In l (finished (session_run (map snd o))) \/ current (session_run (map snd o)) = Some l)).
    { destruct E as [E|E]; rewrite E in Hi; apply in_map_iff in Hi as (l & <- & Hl); exists l; split; auto. now apply close_in. }
    destruct Hx as (l & -> & Hl). exists l. split; auto. intros r Hr.
    assert (Hy : In (CWrite r) (map snd o)). { apply session_run_in. exists l. tauto. }
    apply in_map_iff in Hy as (x & Ex & Hx). apply in_map_iff. exists x. auto. }
  destruct (p_lock s) as [t|] eqn:El.
  - destruct (pi_held s I t El) as (o & c & Eo & F).
    assert (Ho : forall x, In x o -> In x (p_order s)) by (intros x Hx; rewrite Eo; apply in_or_app; now left).
    assert (Hall : forall x, In x (o ++ [(t, c)]) -> In x (p_order s)) by (intros x Hx; now rewrite Eo).
    destruct (p_pcs s t); cbn [flight] in F.
    1-3: easy.
    + destruct F as (_ & _ & _ & _ & E). apply (Hm o _ Ho eq_refl). auto.
    + destruct F as (r & _ & _ & (_ & _ & E) & _). apply (Hm o _ Ho eq_refl). auto.
    + destruct F as (_ & (_ & _ & E) & _). apply (Hm o _ Ho eq_refl). auto.
    + destruct F as (_ & l & _ & _ & _ & E). apply (Hm o _ Ho eq_refl). auto.
    + destruct F as (_ & _ & _ & E). apply (Hm o _ Ho eq_refl). auto.
    + destruct F as (_ & _ & _ & E). apply (Hm o _ Ho eq_refl). auto.
    + destruct F as (_ & _ & _ & E). apply (Hm o _ Ho eq_refl). auto.
    + destruct F as (_ & _ & E). eapply (Hm (o ++ [(t, c)])); [exact Hall|reflexivity|]. left.
      rewrite map_app. cbn [map snd]. rewrite session_run_app. exact E.
  - destruct (pi_free s I El) as (_ & _ & E). apply (Hm (p_order s) _ (fun x Hx => Hx) eq_refl). auto.
Qed.

Lemma issued_in l : forall s, (forall t c, In c (p_issued (fold_left p_step l s) t) -> In c (p_issued s t) \/ In (t, c) l).
Proof.
  induction l as [|[u d] l IH]; intros s t c H; auto. cbn [fold_left] in H. apply IH in H as [H|H]; [|right; now right].
  unfold p_step in H. destruct (p_pcs s u); cbn [p_issued] in H; auto.
  - destruct (Nat.eq_dec t u) as [->|Hne]; [rewrite pset_same in H|rewrite pset_other in H by auto; auto].
    apply in_app_or in H as [H|[->|[]]]; auto. right. now left.
  - destruct (p_lock s); cbn in H; auto.
  - destruct ok; cbn in H; auto.
Qed.
Lemma order_in l t c : In (t, c) (p_order (p_exec l)) -> In (t, c) l.
Proof.
  intros H. destruct (issued_in l p_init t c) as [Hx|Hx]; [|easy|auto]. fold (p_exec l). rewrite <- (pi_issued _ (pinv_exec l) t).
  apply in_or_app. left. apply in_map_iff. exists (t, c). split; auto. apply filter_In. split; auto. apply Nat.eqb_refl.
Qed.

(** * Traces are JSON *)
Lemma digit_show d : Forall is_digit (show_uint d).
Proof. induction d; cbn [show_uint]; constructor; auto; unfold is_digit; vm_compute; split; repeat constructor. Qed.
Lemma show_N_number n : number (show_N n) /\ hd "-"%char (show_N n) <> "-"%char.
Proof.
  unfold show_N. assert (H : unorm (N.to_uint n) = N.to_uint n).
  { rewrite <- DecimalN.Unsigned.to_of, DecimalN.Unsigned.of_to. reflexivity. }
  destruct (nzhead (N.to_uint n)) as [|d|d|d|d|d|d|d|d|d|d] eqn:E.
  - unfold unorm in H. rewrite E in H. rewrite <- H. split; [constructor|discriminate].
  - exfalso. revert E. generalize (N.to_uint n). intros u. induction u; cbn; try discriminate. auto.
  - unfold unorm in H. rewrite E in H. rewrite <- H. cbn [show_uint hd]. split; [|discriminate]. apply n_nat; [unfold is_digit; vm_compute; split; repeat constructor|discriminate|apply digit_show].
  - unfold unorm in H. rewrite E in H. rewrite <- H. cbn [show_uint hd]. split; [|discriminate]. apply n_nat; [unfold is_digit; vm_compute; split; repeat constructor|discriminate|apply digit_show].
  - unfold unorm in H. rewrite E in H. rewrite <- H. cbn [show_uint hd]. split; [|discriminate]. apply n_nat; [unfold is_digit; vm_compute; split; repeat constructor|discriminate|apply digit_show].
  - unfold unorm in H. rewrite E in H. rewrite <- H. cbn [show_uint hd]. split; [|discriminate]. apply n_nat; [unfold is_digit; vm_compute; split; repeat constructor|discriminate|apply digit_show].
  - unfold unorm in H. rewrite E in H. rewrite <- H. cbn [show_uint hd]. split; [|discriminate]. apply n_nat; [unfold is_digit; vm_compute; split; repeat constructor|discriminate|apply digit_show].
  - unfold unorm in H. rewrite E in H. rewrite <- H. cbn [show_uint hd]. split; [|discriminate]. apply n_nat; [unfold is_digit; vm_compute; split; repeat constructor|discriminate|apply digit_show].
  - unfold unorm in H. rewrite E in H. rewrite <- H. cbn [show_uint hd]. split; [|discriminate]. apply n_nat; [unfold is_digit; vm_compute; split; repeat constructor|discriminate|apply digit_show].
  - unfold unorm in H. rewrite E in H. rewrite <- H. cbn [show_uint hd]. split; [|discriminate]. apply n_nat; [unfold is_digit; vm_compute; split; repeat constructor|discriminate|apply digit_show].
  - unfold unorm in H. rewrite E in H. rewrite <- H. cbn [show_uint hd]. split; [|discriminate]. apply n_nat; [unfold is_digit; vm_compute; split; repeat constructor|discriminate|apply digit_show].
Qed.
Lemma show_Z_number z : number (show_Z z).
Proof.
  unfold show_Z. destruct (z <? 0)%Z; [|apply show_N_number]. apply n_minus; apply show_N_number.
Qed.

Lemma plain_body s : Forall is_plain s -> string_body s.
Proof. induction 1; constructor; auto. Qed.
Definition plainb (c : ascii) : bool := negb (Ascii.eqb c dquote) && negb (Ascii.eqb c backslash) && (32 <=? nat_of_ascii c).
Lemma plainb_ok s : forallb plainb s = true -> string_body s.
Proof.
  intros H. apply plain_body, Forall_forall. intros c Hc. rewrite forallb_forall in H. specialize (H c Hc). unfold plainb in H.
  apply andb_true_iff in H as [H H3]. apply andb_true_iff in H as [H1 H2]. apply Nat.leb_le in H3.
  destruct (Ascii.eqb_spec c dquote); [discriminate|]. destruct (Ascii.eqb_spec c backslash); [discriminate|]. easy.
Qed.

(** One member followed by others. *)
Lemma member_more k v l s : forallb plainb k = true -> json v -> members l -> s = dquote :: k ++ dquote :: txt ":" ++ v ++ txt "," ++ l -> members s.
Proof. intros Hk Hv Hl ->. apply m_more; auto. now apply plainb_ok. Qed.

Lemma object_json l s : members l -> s = txt "{" ++ l ++ txt "}" -> json s.
Proof. intros H ->. now apply j_object. Qed.

Lemma result_json r : string_body (r_name r) -> exists v, json v /\ show_result r = ","%char :: v.
Proof.
  intros Hn. eexists. split; [|unfold show_result; reflexivity]. apply j_space; [unfold is_space; auto|].
  eapply object_json.
  - eapply (member_more (txt "cat") (dquote :: txt "function" ++ [dquote])); [reflexivity|apply j_string; now apply plainb_ok| |reflexivity].
    eapply (member_more (txt "dur") (show_Z (r_end r - r_start r))); [reflexivity|apply j_number, show_Z_number| |reflexivity].
    eapply (member_more (txt "name") (dquote :: r_name r ++ [dquote])); [reflexivity|now apply j_string| |reflexivity].
    eapply (member_more (txt "ph") (dquote :: txt "X" ++ [dquote])); [reflexivity|apply j_string; now apply plainb_ok| |reflexivity].
    eapply (member_more (txt "pid") (txt "0")); [reflexivity|apply j_number; constructor| |reflexivity].
    eapply (member_more (txt "tid") (show_N (r_thread r))); [reflexivity|apply j_number, show_N_number| |reflexivity].
    apply (m_one (txt "ts") (show_Z (r_start r))); [now apply plainb_ok|apply j_number, show_Z_number].
  - repeat (cbn [app txt list_ascii_of_string]; rewrite <- app_assoc). cbn [app txt list_ascii_of_string]. reflexivity.
Qed.
Lemma elements_json l : (forall r, In r l -> string_body (r_name r)) -> forall v, json v -> elements (v ++ concat (map show_result l)).
Proof.
  induction l as [|r l IH]; intros H v Hv; cbn [map concat].
  - rewrite app_nil_r. now apply e_one.
  - destruct (result_json r) as (w & Hw & E); [apply H; now left|]. rewrite E. cbn [app].
    apply (e_more v (w ++ concat (map show_result l))); auto. apply IH; auto. intros r' Hr. apply H. now right.
Qed.
Lemma trace_json l : (forall r, In r l -> string_body (r_name r)) -> json (text_closed l).
Proof.
  intros H. eapply object_json.
  - eapply (member_more (txt "otherData") (" "%char :: txt "{}")); [reflexivity|apply j_space; [unfold is_space; auto|apply j_object0]| |reflexivity].
    apply (m_one (txt "traceEvents") (txt "[" ++ (txt "{}" ++ concat (map show_result l)) ++ txt "]")); [now apply plainb_ok|].
    apply j_array. apply elements_json; auto. apply j_object0.
  - unfold text_closed, text_open, header, footer. cbn [app txt list_ascii_of_string]. rewrite <- ?app_assoc. reflexivity.
Qed.

(** ** A test that JSON texts pass: escapes are valid and strings are closed. *)
Inductive mode := Out | In_string | Escape.
Definition scan1 (m : mode) (c : ascii) : option mode :=
  match m with
  | Out => if Ascii.eqb c dquote then Some In_string else Some Out
  | In_string => if Ascii.eqb c dquote then Some Out else if Ascii.eqb c backslash then Some Escape else Some In_string
  | Escape => if existsb (Ascii.eqb c) (dquote :: backslash :: txt "/bfnrtu") then Some In_string else None
  end.
Fixpoint scan (m : mode) (s : bytes) : option mode :=
  match s with
  | [] => Some m
  | c :: r => match scan1 m c with Some m' => scan m' r | None => None end
  end.
Lemma scan_app m s1 s2 m' : scan m s1 = Some m' -> scan m (s1 ++ s2) = scan m' s2.
Proof.
  revert m. induction s1 as [|c s1 IH]; intros m H; cbn in *; [congruence|]. destruct (scan1 m c); [auto|discriminate].
Qed.
Lemma scan_hex c : is_hex c -> scan1 In_string c = Some In_string.
Proof.
  unfold is_hex, is_digit. intros H. cbn. destruct (Ascii.eqb_spec c dquote) as [->|]; [vm_compute in H; lia|].
  destruct (Ascii.eqb_spec c backslash) as [->|]; [vm_compute in H; lia|]. reflexivity.
Qed.
Lemma scan_body s : string_body s -> scan In_string s = Some In_string.
Proof.
  induction 1 as [|c s (H1 & H2 & _) Hs IH|c s H Hs IH|a b c d s Ha Hb Hc Hd Hs IH].
  - reflexivity.
  - cbn [scan scan1]. destruct (Ascii.eqb_spec c dquote); [easy|]. destruct (Ascii.eqb_spec c backslash); easy.
  - change (scan In_string (backslash :: c :: s)) with (match scan1 Escape c with Some m' => scan m' s | None => None end).
    assert (He : existsb (Ascii.eqb c) (dquote :: backslash :: txt "/bfnrtu") = true).
    { apply existsb_exists. exists c. split; [|apply Ascii.eqb_refl]. cbn in *. intuition. }
    unfold scan1. rewrite He. exact IH.
  - cbn [scan]. replace (scan1 In_string backslash) with (Some Escape) by reflexivity. replace (scan1 Escape "u"%char) with (Some In_string) by reflexivity.
    now rewrite !scan_hex.
Qed.
Lemma scan_digits s : Forall is_digit s -> scan Out s = Some Out.
Proof.
  induction 1 as [|c s H Hs IH]; auto. cbn. destruct (Ascii.eqb_spec c dquote) as [->|]; auto. unfold is_digit in H. vm_compute in H. lia.
Qed.
Lemma scan_number s : number s -> scan Out s = Some Out.
Proof.
  induction 1 as [|c s H1 H2 H3|s H IH]; auto. apply (scan_digits (c :: s)). now constructor.
Qed.
Scheme json_mut := Induction for json Sort Prop
with elements_mut := Induction for elements Sort Prop
with members_mut := Induction for members Sort Prop.
Lemma scan_json : forall s, json s -> scan Out s = Some Out.
Proof.
  apply (json_mut (fun s _ => scan Out s = Some Out) (fun s _ => scan Out s = Some Out) (fun s _ => scan Out s = Some Out)).
  - intros c s H _ IH. cbn. destruct (Ascii.eqb_spec c dquote) as [->|]; auto. exfalso. unfold is_space in H. intuition discriminate.
  - intros s H. now apply scan_number.
  - intros s H. cbn [scan]. change (scan1 Out dquote) with (Some In_string). cbv iota. now rewrite (scan_app _ _ _ _ (scan_body s H)).
  - reflexivity.
  - intros l _ IH. cbn [app txt list_ascii_of_string scan scan1 Ascii.eqb]. change (scan Out ("["%char :: l ++ ["]"%char]) = Some Out).
    change (scan Out ("["%char :: l ++ ["]"%char])) with (scan Out (l ++ ["]"%char])). now rewrite (scan_app _ _ _ _ IH).
  - reflexivity.
  - intros l _ IH. change (scan Out (txt "{" ++ l ++ txt "}")) with (scan Out (l ++ ["}"%char])). now rewrite (scan_app _ _ _ _ IH).
  - intros v _ IH. exact IH.
  - intros v l _ IHv _ IHl. rewrite (scan_app _ _ _ _ IHv). exact IHl.
  - intros k v Hk _ IH. cbn [scan]. change (scan1 Out dquote) with (Some In_string). cbv iota. rewrite (scan_app _ _ _ _ (scan_body k Hk)).
    exact IH.
  - intros k v l Hk _ IHv _ IHl. cbn [scan]. change (scan1 Out dquote) with (Some In_string). cbv iota. rewrite (scan_app _ _ _ _ (scan_body k Hk)).
    change (scan Out (v ++ txt "," ++ l) = Some Out). rewrite (scan_app _ _ _ _ IHv). exact IHl.
Qed.
