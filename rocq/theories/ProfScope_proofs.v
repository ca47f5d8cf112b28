(** Proofs about the records of nested scopes. *)
From Verif Require Import Base Profiler_model ProfScope_model ProfScope_spec.
Local Open Scope list_scope.

Section Ind.
Variable P : item -> Prop.
Hypothesis H0 : P StopTimer.
Hypothesis H1 : forall name body, Forall P body -> P (Inner name body).
Fixpoint item_ind2 (x : item) : P x :=
  match x with
  | StopTimer => H0
  | Inner name body => H1 name body ((fix all l : Forall P l := match l with [] => Forall_nil P | i :: l' => Forall_cons i (item_ind2 i) (all l') end) body)
  end.
End Ind.

Lemma to_us_mono a b : (a <= b)%Z -> (to_us a <= to_us b)%Z.
Proof. intros H. unfold to_us. apply Z.quot_le_mono; lia. Qed.

Notation pstep := (nat * list result)%type.

Section Run.
Variable clock : nat -> Z.
Variable th : N.
Notation run_item := (run_item clock th).
Notation run_items := (run_items clock th).
Notation pt_destroy := (pt_destroy clock th).

Lemma each_fold l : forall z, (fix each (l : list item) (z : timer * pstep) : timer * pstep :=
   match l with [] => z | i :: l' => each l' (run_item i z) end) l z = run_items l z.
Proof. induction l as [|i l IH]; intros z; cbn; auto. Qed.

Lemma run_inner name body t st : run_item (Inner name body) (t, st) =
  (t, let (t', st') := run_items body (pt_new name (clock (fst st)), (S (fst st), snd st)) in pt_destroy t' st').
Proof. cbn [ProfScope_model.run_item]. rewrite each_fold. destruct (run_items _ _); auto. Qed.

Lemma automatic_all name body : automatic (Inner name body) -> Forall automatic body.
Proof. cbn. induction body; constructor; [apply H|apply IHbody, H]. Qed.

(** ** Without calls of Stop *)
Hypothesis mono : forall n, (clock n <= clock (S n))%Z.

Definition ok_item (x : item) : Prop := automatic x -> forall t n rs, pt_stopped t = false ->
  exists k new, run_item x (t, (n, rs)) = (t, (k, rs ++ new)) /\ forall lo hi rest after, (lo <= to_us (clock n))%Z -> trace th (to_us (clock (pred k))) hi rest after -> trace th lo hi (x :: rest) (new ++ after) /\ n < k.

Lemma run_app l1 l2 z : run_items (l1 ++ l2) z = run_items l2 (run_items l1 z).
Proof. unfold ProfScope_model.run_items. apply fold_left_app. Qed.

Lemma items_ok body : Forall ok_item body -> Forall automatic body -> forall t n rs, pt_stopped t = false -> 0 < n ->
  exists k new, run_items body (t, (n, rs)) = (t, (k, rs ++ new)) /\ n <= k /\ forall lo hi, (lo <= to_us (clock (pred n)))%Z -> (to_us (clock (pred k)) <= hi)%Z -> trace th lo hi body new.
Proof.
  induction 1 as [|x body Hx Hb IH]; intros Ha t n rs Hs Hn; inversion Ha as [|? ? A1 A2]; subst.
  - exists n, []. cbn. rewrite app_nil_r. split; auto. split; auto. intros lo hi L1 L2. constructor. lia.
  - destruct (Hx A1 t n rs Hs) as (k & new & E & Hk).
    assert (Lk : n < k) by (apply (Hk (to_us (clock n)) (to_us (clock (pred k))) [] []); [lia|constructor; lia]).
    destruct (IH A2 t k (rs ++ new) Hs) as (k' & new' & E' & L & Ht); [lia|]. exists k', (new ++ new'). split; [|split].
    + change (run_items (x :: body) (t, (n, rs))) with (run_items body (run_item x (t, (n, rs)))). rewrite E, E'. now rewrite app_assoc.
    + lia.
    + intros lo hi L1 L2. apply Hk; [|apply Ht; [lia|exact L2]]. pose proof (to_us_mono _ _ (mono (pred n))) as M. replace (S (pred n)) with n in M by lia. lia.
Qed.

Lemma item_ok x : ok_item x.
Proof.
  induction x as [|name body IH] using item_ind2; intros Ha; [destruct Ha|]. intros t n rs Hs. apply automatic_all in Ha. rewrite run_inner. cbn [fst snd].
  destruct (items_ok body IH Ha (pt_new name (clock n)) (S n) rs eq_refl) as (k & new & -> & L & Ht); [lia|]. unfold ProfScope_model.pt_destroy. cbn [pt_stopped pt_new pt_stop fst snd pt_name pt_start].
  exists (S k), (new ++ [Result name (to_us (clock n)) (to_us (clock k)) th]). split; [now rewrite app_assoc|].
  intros lo hi rest after L1 Hr. cbn [pred] in Hr. split; [|lia]. rewrite <- app_assoc. cbn [app]. constructor; auto. apply Ht; [cbn [pred]; lia|].
  pose proof (to_us_mono _ _ (mono (pred k))) as M. replace (S (pred k)) with k in M by lia. exact M.
Qed.

Lemma scope_trace name body n : automatic (Inner name body) ->
  exists k rs, run_scope clock th name body n = (k, rs) /\ n < k /\ trace th (to_us (clock n)) (to_us (clock (pred k))) [Inner name body] rs.
Proof.
  intros Ha. destruct (item_ok (Inner name body) Ha (Timer [] 0 false) n [] eq_refl) as (k & new & E & Hk). rewrite run_inner in E. cbn [fst snd] in E.
  unfold run_scope. exists k, new. split.
  - injection E as E. rewrite E. reflexivity.
  - destruct (Hk (to_us (clock n)) (to_us (clock (pred k))) [] []) as (T & L); [lia|constructor; lia|]. rewrite app_nil_r in T. auto.
Qed.
End Run.

(** ** What a trace means *)
Lemma trace_le th lo hi l rs : trace th lo hi l rs -> (lo <= hi)%Z.
Proof. induction 1; lia. Qed.

Lemma trace_within th lo hi l rs : trace th lo hi l rs -> forall r, In r rs -> (lo <= r_start r /\ r_start r <= r_end r /\ r_end r <= hi)%Z /\ r_thread r = th.
Proof.
  induction 1 as [|lo hi name body rest s e inner after L H1 IH1 H2 IH2]; intros r I; [destruct I|]. pose proof (trace_le _ _ _ _ _ H1). pose proof (trace_le _ _ _ _ _ H2).
  apply in_app_iff in I as [I|[<-|I]].
  - destruct (IH1 r I) as (? & ?). split; [lia|auto].
  - cbn. split; [lia|auto].
  - destruct (IH2 r I) as (? & ?). split; [lia|auto].
Qed.

Lemma trace_laminar th lo hi l rs : trace th lo hi l rs -> forall r r', In r rs -> In r' rs -> laminar r r'.
Proof.
  induction 1 as [|lo hi name body rest s e inner after L H1 IH1 H2 IH2]; intros r r' I I'; [destruct I|].
  pose proof (trace_within _ _ _ _ _ H1) as W1. pose proof (trace_within _ _ _ _ _ H2) as W2. pose proof (trace_le _ _ _ _ _ H1). unfold laminar.
  apply in_app_iff in I as [I|[<-|I]]; apply in_app_iff in I' as [I'|[<-|I']]; cbn [r_start r_end].
  - now apply IH1.
  - destruct (W1 r I). lia.
  - destruct (W1 r I), (W2 r' I'). lia.
  - destruct (W1 r' I'). lia.
  - lia.
  - destruct (W2 r' I'). lia.
  - destruct (W2 r I), (W1 r' I'). lia.
  - destruct (W2 r I). lia.
  - now apply IH2.
Qed.

(** ** Number of records, with calls of Stop and any clock *)
Section Count.
Variable clock : nat -> Z.
Variable th : N.
Notation run_item := (run_item clock th).
Notation run_items := (run_items clock th).

Definition counts (x : item) : Prop := forall t st, exists t' st', run_item x (t, st) = (t', st') /\ length (snd st') = length (snd st) + expected x /\
  pt_stopped t' = (match x with StopTimer => true | _ => pt_stopped t end) /\ pt_name t' = pt_name t.
Definition sum_expected := (fix sum l := match l with [] => 0 | i :: l' => expected i + sum l' end).

Lemma items_count body : Forall counts body -> forall t st, exists t' st', run_items body (t, st) = (t', st') /\ length (snd st') = length (snd st) + sum_expected body /\
  pt_stopped t' = pt_stopped t || negb (stops body =? 0).
Proof.
  induction 1 as [|x body Hx Hb IH]; intros t st; cbn [sum_expected].
  - exists t, st. cbn. rewrite orb_false_r. auto.
  - destruct (Hx t st) as (t1 & st1 & E1 & L1 & S1 & _). destruct (IH t1 st1) as (t2 & st2 & E2 & L2 & S2). exists t2, st2. split; [|split].
    + change (run_items (x :: body) (t, st)) with (run_items body (run_item x (t, st))). now rewrite E1.
    + lia.
    + rewrite S2, S1. unfold stops. cbn [filter]. destruct x; cbn [length]; auto. rewrite orb_true_l. now rewrite orb_true_r.
Qed.

Lemma item_counts x : counts x.
Proof.
  induction x as [|name body IH] using item_ind2; intros t st.
  - cbn. eexists _, _. split; [reflexivity|]. cbn. rewrite app_length. cbn. auto.
  - rewrite (run_inner clock th name body). destruct (items_count body IH (pt_new name (clock (fst st))) (S (fst st), snd st)) as (t' & st' & E & L & Q). cbn [pt_stopped pt_new orb] in Q.
    assert (X : forall z, z = (t', st') -> (let (t1, st1) := z in pt_destroy clock th t1 st1) = pt_destroy clock th t' st') by now intros ? ->. rewrite (X _ E).
    eexists _, _. split; [reflexivity|]. split; [|auto]. change (expected (Inner name body)) with (sum_expected body + (if stops body =? 0 then 1 else 0)). cbn [snd] in L.
    unfold pt_destroy. rewrite Q. destruct (stops body =? 0); cbn [negb]; cbn; [rewrite app_length; cbn|]; lia.
Qed.

Lemma scope_count name body n : length (snd (run_scope clock th name body n)) = expected (Inner name body).
Proof.
  destruct (item_counts (Inner name body) (Timer [] 0 false) (n, [])) as (t' & st' & E & L & _). rewrite run_inner in E. cbn [fst snd] in E. injection E as _ E.
  unfold run_scope. rewrite E. exact L.
Qed.
End Count.
