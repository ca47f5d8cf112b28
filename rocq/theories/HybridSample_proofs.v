(** Hybrid A*: sampling of the path. *)
From Coq Require Import Reals Lra Psatz Sorted.
From Verif Require Import Base RealBase Hybrid_model.
From Coq Require Import ZifyBool ZifyNat ZifyN.
Local Open Scope R_scope.

(** ** The set of cusps *)
Definition increasing (l : list R) : Prop := StronglySorted Rlt l.

Lemma insert_in x y l : In y (rset_insert x l) <-> y = x \/ In y l.
Proof.
  induction l as [|z r IH]; cbn; [intuition|]. destruct (Rltb_spec x z) as [H|H]; [cbn; intuition|]. destruct (Rltb_spec z x) as [K|K]; cbn; [rewrite IH; intuition|].
  assert (x = z) by lra. subst z. intuition.
Qed.

Lemma insert_increasing x l : increasing l -> increasing (rset_insert x l).
Proof.
  induction l as [|z r IH]; intros H; cbn; [repeat constructor|]. inversion H as [|? ? Hr Hz]; subst.
  destruct (Rltb_spec x z) as [L|L].
  - constructor; auto. constructor; auto. apply Forall_forall. intros y I. rewrite Forall_forall in Hz. specialize (Hz y I). lra.
  - destruct (Rltb_spec z x) as [K|K]; auto. constructor; [apply IH; auto|]. apply Forall_forall. intros y I. apply insert_in in I as [->|I]; auto. rewrite Forall_forall in Hz. auto.
Qed.

Lemma fold_insert l : forall s, increasing s -> increasing (fold_left (fun s x => rset_insert x s) l s) /\
  forall y, In y (fold_left (fun s x => rset_insert x s) l s) <-> In y l \/ In y s.
Proof.
  induction l as [|x l IH]; intros s H; cbn; [intuition|]. destruct (IH (rset_insert x s) (insert_increasing x s H)) as [A B]. split; auto.
  intros y. rewrite B, insert_in. intuition.
Qed.

Lemma cusp_set_spec cusps : increasing (cusp_set cusps) /\ forall y, In y (cusp_set cusps) <-> y = 0 \/ y = 1 \/ In y cusps.
Proof.
  unfold cusp_set. destruct (fold_insert cusps [] ltac:(constructor)) as [A B]. split; [now do 2 apply insert_increasing|].
  intros y. rewrite !insert_in, B. cbn. intuition.
Qed.

(** ** The loop *)
Section Loop.
Variables total step : R.
Hypothesis Ht : 0 < total.
Hypothesis Hs : 0 < step.

(** The window of the sample [i]. *)
Definition in_window (i : nat) (r : R) : Prop := INR i * step - step / 2 < r * total <= INR i * step + step / 2.

Lemma sample_unfold k len its rs cs : sample_loop (S k) total step len its rs cs =
  if Rleb len total then
    match its with
    | [] => UB
    | c :: its' =>
        if Rleb (c * total - step / 2) len && Rltb len (c * total + step / 2)
        then sample_loop k total step (len + step) its' (rs ++ [c]) (cs ++ [length rs])
        else sample_loop k total step (len + step) its (rs ++ [len / total]) cs
    end
  else Ok (rs, cs).
Proof. reflexivity. Qed.

Lemma window_test i c : Rleb (c * total - step / 2) (INR i * step) && Rltb (INR i * step) (c * total + step / 2) = true <-> in_window i c.
Proof. rewrite Bool.andb_true_iff, Rleb_true, Rltb_true. unfold in_window. lra. Qed.

(** The iterator can be read: the set still has the ratio one, or the path has been sampled. *)
Definition readable (i : nat) (its : list R) : Prop := In 1 its \/ total < INR i * step.

Record sampled (rs : list R) (cs : list nat) (set : list R) : Prop := {
  sm_window : forall i r, nth_error rs i = Some r -> in_window i r /\ 0 <= r <= 1;
  sm_mark : forall i, In i cs -> exists c, nth_error rs i = Some c /\ In c set
}.

Lemma nth_snoc {A} (l : list A) x i y : nth_error (l ++ [x]) i = Some y -> nth_error l i = Some y \/ (i = length l /\ y = x).
Proof.
  intros H. destruct (Nat.lt_ge_cases i (length l)) as [L|L]; [left; now rewrite nth_error_app1 in H|]. rewrite nth_error_app2 in H by lia.
  destruct (i - length l)%nat eqn:E; [|destruct n; discriminate]. cbn in H. right. split; [lia|congruence].
Qed.
Lemma nth_snoc_last {A} (l : list A) x : nth_error (l ++ [x]) (length l) = Some x.
Proof. rewrite nth_error_app2 by lia. rewrite Nat.sub_diag. reflexivity. Qed.
Lemma nth_snoc_keep {A} (l : list A) x i y : nth_error l i = Some y -> nth_error (l ++ [x]) i = Some y.
Proof. intros H. rewrite nth_error_app1; auto. apply nth_error_Some. congruence. Qed.

Lemma ratio_bounds i : INR i * step <= total -> 0 <= INR i * step / total <= 1.
Proof.
  intros H. assert (P : 0 <= INR i * step) by (apply Rmult_le_pos; [apply pos_INR|lra]). split.
  - apply Rmult_le_pos; [auto|left; now apply Rinv_0_lt_compat].
  - apply (Rmult_le_reg_r total); auto. unfold Rdiv. rewrite Rmult_assoc, Rinv_l by lra. lra.
Qed.

(** What the loop returns: samples in their windows, as many as the length asks for. *)
Lemma loop_sampled set fuel : forall i its rs cs, length rs = i -> increasing its -> incl its set -> (forall c, In c set -> 0 <= c <= 1) -> readable i its ->
  sampled rs cs set -> INR i * step <= total + step -> total < INR i * step + INR fuel * step ->
  exists rs' cs', sample_loop fuel total step (INR i * step) its rs cs = Ok (rs', cs') /\ sampled rs' cs' set /\
    (exists tl, rs' = rs ++ tl) /\ total < INR (length rs') * step <= total + step.
Proof.
  induction fuel as [|k IH]; intros i its rs cs El Hi Hsub Hset Hread Hsm Hlen Hf.
  - cbn in Hf. exists rs, cs. cbn. destruct (Rleb_spec (INR i * step) total); [exfalso; lra|]. split; auto. split; auto. split; [exists []; now rewrite app_nil_r|].
    rewrite El. lra.
  - rewrite sample_unfold. rewrite S_INR in Hf. destruct (Rleb_spec (INR i * step) total) as [L|L].
    + assert (Ei : INR i * step + step = INR (S i) * step) by (rewrite S_INR; ring). rewrite Ei.
      destruct its as [|c its]; [destruct Hread as [[]|?]; exfalso; lra|].
      destruct (Rleb (c * total - step / 2) (INR i * step) && Rltb (INR i * step) (c * total + step / 2)) eqn:W.
      * apply window_test in W. inversion Hi as [|? ? Hi' Hc]; subst.
        destruct (IH (S (length rs)) its (rs ++ [c]) (cs ++ [length rs])) as (rs' & cs' & E & S' & (tl & Htl) & B).
        { rewrite app_length. cbn. lia. }
        { exact Hi'. }
        { intros x I. apply Hsub. now right. }
        { exact Hset. }
        { destruct Hread as [[->|I]|?]; [right|left; exact I|right].
          - destruct W as [_ W]. rewrite S_INR. lra.
          - rewrite S_INR. lra. }
        { split.
          - intros j r Hj. apply nth_snoc in Hj as [Hj|[-> ->]]; [now apply Hsm|]. split; [exact W|]. apply Hset. apply Hsub. now left.
          - intros j I. apply in_app_iff in I as [I|[<-|[]]].
            + destruct (sm_mark _ _ _ Hsm j I) as (c0 & E0 & I0). exists c0. split; auto. now apply nth_snoc_keep.
            + exists c. split; [apply nth_snoc_last|]. apply Hsub. now left. }
        { lra. }
        { rewrite <- Ei. lra. }
        exists rs', cs'. split; auto. split; auto. split; auto. exists (c :: tl). rewrite Htl, <- app_assoc. reflexivity.
      * destruct (IH (S i) (c :: its) (rs ++ [INR i * step / total]) cs) as (rs' & cs' & E & S' & (tl & Htl) & B).
        { rewrite app_length. cbn. lia. }
        { exact Hi. }
        { exact Hsub. }
        { exact Hset. }
        { destruct Hread as [I|?]; [left; exact I|right; rewrite S_INR; lra]. }
        { split.
          - intros j r Hj. apply nth_snoc in Hj as [Hj|[-> ->]]; [now apply Hsm|]. split; [|apply ratio_bounds; exact L].
            unfold in_window. rewrite El. unfold Rdiv. rewrite !Rmult_assoc, Rinv_l, Rmult_1_r by lra. lra.
          - intros j I. destruct (sm_mark _ _ _ Hsm j I) as (c0 & E0 & I0). exists c0. split; auto. now apply nth_snoc_keep. }
        { lra. }
        { rewrite <- Ei. lra. }
        exists rs', cs'. split; auto. split; auto. split; auto. exists (INR i * step / total :: tl). rewrite Htl, <- app_assoc. reflexivity.
    + exists rs, cs. split; auto. split; auto. split; [exists []; now rewrite app_nil_r|]. rewrite El. lra.
Qed.

(** Which cusps are kept, if they are apart by at least the step. *)
Lemma loop_kept fuel : forall i its rs cs rs' cs', length rs = i -> increasing its -> (forall c, In c its -> INR i * step - step / 2 < c * total) ->
  (forall c c', In c its -> In c' its -> c < c' -> c * total + step <= c' * total) ->
  (forall j, In j cs -> (j < length rs)%nat) ->
  sample_loop fuel total step (INR i * step) its rs cs = Ok (rs', cs') ->
  (forall c, (exists j, In j cs /\ nth_error rs j = Some c) \/ In c its ->
     (exists j, In j cs' /\ nth_error rs' j = Some c) \/ INR (length rs') * step - step / 2 < c * total).
Proof.
  induction fuel as [|k IH]; intros i its rs cs rs' cs' El Hi Hhead Hsep Hcs E.
  - cbn in E. destruct (Rleb (INR i * step) total); [discriminate|]. assert (rs' = rs /\ cs' = cs) as [-> ->] by (split; congruence).
    intros c [H|I]; [now left|right]. rewrite El. auto.
  - rewrite sample_unfold in E. destruct (Rleb_spec (INR i * step) total) as [L|L].
    + assert (Ei : INR i * step + step = INR (S i) * step) by (rewrite S_INR; ring). rewrite Ei in E.
      destruct its as [|c0 its]; [discriminate|].
      destruct (Rleb (c0 * total - step / 2) (INR i * step) && Rltb (INR i * step) (c0 * total + step / 2)) eqn:W.
      * apply window_test in W. destruct W as [W1 W2]. inversion Hi as [|? ? Hi' Hc0]; subst. rewrite Forall_forall in Hc0. intros c H.
        assert (H' : (exists j, In j (cs ++ [length rs]) /\ nth_error (rs ++ [c0]) j = Some c) \/ In c its).
        { destruct H as [(j & I & N)|[<-|I]]; [left|left|right; exact I].
          - exists j. split; [apply in_app_iff; auto|now apply nth_snoc_keep].
          - exists (length rs). split; [apply in_app_iff; right; now left|apply nth_snoc_last]. }
        eapply IH; [| | | | |exact E|exact H'].
        -- rewrite app_length. cbn. lia.
        -- exact Hi'.
        -- intros c' I. specialize (Hsep c0 c' (or_introl eq_refl) (or_intror I) (Hc0 c' I)). rewrite S_INR. lra.
        -- intros a b Ia Ib. apply Hsep; now right.
        -- intros j I. rewrite app_length. cbn. apply in_app_iff in I as [I|[<-|[]]]; [|lia]. specialize (Hcs j I). lia.
      * intros c H. assert (Hc : INR i * step + step / 2 < c0 * total).
        { pose proof (Hhead c0 (or_introl eq_refl)). destruct (Rle_dec (c0 * total) (INR i * step + step / 2)) as [K|K]; [|lra].
          exfalso. assert (in_window i c0) as Wt by (split; lra). apply window_test in Wt. congruence. }
        assert (H' : (exists j, In j cs /\ nth_error (rs ++ [INR i * step / total]) j = Some c) \/ In c (c0 :: its)).
        { destruct H as [(j & I & N)|I]; [left|right; exact I]. exists j. split; [exact I|now apply nth_snoc_keep]. }
        eapply IH; [| | | | |exact E|exact H'].
        -- rewrite app_length. cbn. lia.
        -- exact Hi.
        -- intros c' [<-|I]; rewrite S_INR; [lra|]. inversion Hi as [|? ? Hi' Hc0]; subst. rewrite Forall_forall in Hc0. specialize (Hsep c0 c' (or_introl eq_refl) (or_intror I) (Hc0 c' I)). lra.
        -- exact Hsep.
        -- intros j I. rewrite app_length. cbn. specialize (Hcs j I). lia.
    + assert (rs' = rs /\ cs' = cs) as [-> ->] by (split; congruence). intros c [H|I]; [now left|right]. rewrite El. auto.
Qed.

(** An iterator that has been passed stays. *)
Lemma loop_stuck fuel : forall i c its rs cs rs' cs', c * total <= INR i * step - step / 2 ->
  sample_loop fuel total step (INR i * step) (c :: its) rs cs = Ok (rs', cs') ->
  cs' = cs /\ exists tl, rs' = rs ++ tl /\ forall r, In r tl -> exists j, r = INR j * step / total.
Proof.
  induction fuel as [|k IH]; intros i c its rs cs rs' cs' Hc E.
  - cbn in E. destruct (Rleb (INR i * step) total); [discriminate|]. assert (rs' = rs /\ cs' = cs) as [-> ->] by (split; congruence).
    split; auto. exists []. rewrite app_nil_r. split; auto. intros r [].
  - rewrite sample_unfold in E. destruct (Rleb (INR i * step) total).
    + destruct (Rleb (c * total - step / 2) (INR i * step) && Rltb (INR i * step) (c * total + step / 2)) eqn:W.
      * apply window_test in W. unfold in_window in W. exfalso. lra.
      * assert (Ei : INR i * step + step = INR (S i) * step) by (rewrite S_INR; ring). rewrite Ei in E. apply IH in E as (-> & tl & -> & H); [|rewrite S_INR; lra].
        split; auto. exists (INR i * step / total :: tl). rewrite <- app_assoc. split; auto. intros r [<-|I]; eauto.
    + assert (rs' = rs /\ cs' = cs) as [-> ->] by (split; congruence). split; auto. exists []. rewrite app_nil_r. split; auto. intros r [].
Qed.

Lemma loop_prefix fuel : forall len its rs cs rs' cs', sample_loop fuel total step len its rs cs = Ok (rs', cs') -> (exists tl, rs' = rs ++ tl) /\ (exists tl, cs' = cs ++ tl).
Proof.
  induction fuel as [|k IH]; intros len its rs cs rs' cs' E.
  - cbn in E. destruct (Rleb len total); [discriminate|]. assert (rs' = rs /\ cs' = cs) as [-> ->] by (split; congruence). split; exists []; now rewrite app_nil_r.
  - rewrite sample_unfold in E. destruct (Rleb len total).
    + destruct its as [|c its]; [discriminate|]. destruct (Rleb (c * total - step / 2) len && Rltb len (c * total + step / 2));
        apply IH in E as [(tl & ->) (tl' & ->)]; rewrite <- !app_assoc; eauto.
    + assert (rs' = rs /\ cs' = cs) as [-> ->] by (split; congruence). split; exists []; now rewrite app_nil_r.
Qed.

(** ** The whole sampling *)
Variable cusps : list R.
Hypothesis Hcusps : forall c, In c cusps -> 0 <= c <= 1.

Lemma set_bounds c : In c (cusp_set cusps) -> 0 <= c <= 1.
Proof. intros I. apply cusp_set_spec in I as [->|[->|I]]; auto; lra. Qed.

Lemma cusp_set_head : exists its, cusp_set cusps = 0 :: its /\ increasing its /\ forall c, In c its -> 0 < c.
Proof.
  destruct (cusp_set_spec cusps) as [H1 H2]. destruct (cusp_set cusps) as [|c its] eqn:E.
  - exfalso. apply (proj2 (H2 0)). now left.
  - inversion H1 as [|? ? Hi Hc]; subst. rewrite Forall_forall in Hc. assert (c = 0) as ->.
    { assert (0 <= c) by (apply set_bounds; rewrite E; now left). destruct (proj2 (H2 0) (or_introl eq_refl)) as [?|I]; auto. specialize (Hc 0 I). lra. }
    exists its. auto.
Qed.

Lemma sample_spec fuel : total < INR fuel * step -> exists rs cs, sample fuel total step cusps = Ok (rs, cs) /\ sampled rs cs (cusp_set cusps) /\
  total < INR (length rs) * step <= total + step /\ nth_error rs 0 = Some 0.
Proof.
  intros Hf. unfold sample. destruct cusp_set_head as (its & Es & Hi & Hp). destruct (cusp_set_spec cusps) as [H1 H2].
  destruct (loop_sampled (cusp_set cusps) fuel 0 (cusp_set cusps) [] []) as (rs & cs & E & S & _ & B); auto.
  - apply incl_refl.
  - apply set_bounds.
  - left. apply H2. auto.
  - split; [intros [|i] r; discriminate|intros i []].
  - cbn. lra.
  - cbn. lra.
  - cbn [INR] in E. rewrite Rmult_0_l in E. exists rs, cs. split; auto. split; auto. split; auto. destruct fuel as [|k]; [cbn in Hf; exfalso; lra|].
    rewrite Es in E. rewrite sample_unfold in E. destruct (Rleb_spec 0 total); [|exfalso; lra].
    destruct (Rleb_spec (0 * total - step / 2) 0) as [_|]; [|exfalso; lra]. destruct (Rltb_spec 0 (0 * total + step / 2)) as [_|]; [|exfalso; lra]. cbn [andb app length] in E.
    apply loop_prefix in E as [(tl & ->) _]. reflexivity.
Qed.

(** Cusps that are apart are kept, except near the end; the end is kept if it is not too far from the last multiple of the step. *)
Lemma sample_kept fuel rs cs : (forall c c', In c (cusp_set cusps) -> In c' (cusp_set cusps) -> c < c' -> c * total + step <= c' * total) ->
  sample fuel total step cusps = Ok (rs, cs) -> total < INR (length rs) * step ->
  forall c, In c (cusp_set cusps) -> c * total <= INR (length rs) * step - step / 2 -> exists j, In j cs /\ nth_error rs j = Some c.
Proof.
  intros Hsep E Hn c I Hc. unfold sample in E. destruct (cusp_set_spec cusps) as [H1 H2].
  replace 0 with (INR 0 * step) in E by (cbn; ring).
  destruct (loop_kept fuel 0 (cusp_set cusps) [] [] rs cs) with (c := c) as [H|H]; auto.
  - intros x Ix. apply set_bounds in Ix. cbn. nra.
  - intros j [].
  - exfalso. lra.
Qed.

(** The end is only found if it is close to a multiple of the step. *)
Lemma sample_end fuel rs cs k : sample fuel total step cusps = Ok (rs, cs) -> INR k * step + step / 2 < total < INR (S k) * step -> total < INR fuel * step -> ~ In 1 rs.
Proof.
  intros E Hk Hf I. destruct (sample_spec fuel Hf) as (rs' & cs' & E' & Sm & B & _). assert (rs' = rs) as -> by congruence.
  apply In_nth_error in I as [i Hi]. destruct (sm_window _ _ _ Sm i 1 Hi) as [[W1 W2] _]. assert (i < length rs)%nat by (apply nth_error_Some; congruence).
  assert (L : (i <= k)%nat).
  { assert (INR (length rs) * step < INR (S (S k)) * step) as K by (rewrite (S_INR (S k)); lra). apply Rmult_lt_reg_r in K; auto. apply INR_lt in K. lia. }
  apply le_INR in L. nra.
Qed.

(** Neighbouring samples are in the right order, and at most two steps apart. *)
Lemma sample_gaps rs cs set i a b : sampled rs cs set -> nth_error rs i = Some a -> nth_error rs (S i) = Some b -> a < b /\ b * total - a * total < 2 * step.
Proof.
  intros Sm Ea Eb. destruct (sm_window _ _ _ Sm i a Ea) as [[A1 A2] _]. destruct (sm_window _ _ _ Sm _ b Eb) as [[B1 B2] _]. rewrite S_INR in B1, B2. split; [|lra].
  apply (Rmult_lt_reg_r total); auto. lra.
Qed.

(** The last sample is less than one step and a half before the end. *)
Lemma sample_last rs cs set : sampled rs cs set -> total < INR (length rs) * step -> forall r, nth_error rs (pred (length rs)) = Some r -> total - r * total < 3 / 2 * step.
Proof.
  intros Sm B r E. destruct (sm_window _ _ _ Sm _ r E) as [[W _] _]. assert (length rs = S (pred (length rs))) as El by (destruct rs; [discriminate|reflexivity]).
  rewrite El, S_INR in B. lra.
Qed.
End Loop.
