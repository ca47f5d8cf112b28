(** Proofs about the initialization of the random generators. *)
From Verif Require Import Base RandomInit_model.

Lemma scalar_eqb_eq a b : scalar_eqb a b = true <-> a = b.
Proof. destruct a, b; cbn; split; congruence. Qed.

Lemma gens_set_same g t x : gens_set g t x t = x.
Proof. unfold gens_set. now destruct t. Qed.
Lemma gens_set_other g t x u : t <> u -> gens_set g t x u = g u.
Proof. unfold gens_set. destruct t, u; cbn; congruence. Qed.

(** A generator that is ready. *)
Definition ready (g : gens) (t : scalar) : Prop := g t <> None.

Lemma init_ready t g : ready (gen_init t g) t.
Proof. unfold ready, gen_init. destruct (g t) eqn:E; [congruence|]. now rewrite gens_set_same. Qed.
Lemma init_keeps t u g : ready g u -> ready (gen_init t g) u.
Proof.
  unfold ready, gen_init. intros H. destruct (g t) eqn:E; auto.
  destruct (scalar_eqb t u) eqn:Etu; [apply scalar_eqb_eq in Etu; subst; now rewrite gens_set_same|].
  rewrite gens_set_other; auto. intros ->. destruct u; discriminate.
Qed.
Lemma draw_ok t g : ready g t -> exists n g', gen_draw t g = Ok (n, g') /\ forall u, ready g u -> ready g' u.
Proof.
  unfold ready, gen_draw. intros H. destruct (g t) as [k|] eqn:E; [|easy]. exists k, (gens_set g t (Some (Datatypes.S k))).
  split; auto. intros u Hu. destruct (scalar_eqb t u) eqn:Etu; [apply scalar_eqb_eq in Etu; subst; now rewrite gens_set_same|].
  rewrite gens_set_other; auto. intros ->. destruct u; discriminate.
Qed.

Lemma draws_ok k t b g : ready g Double -> ready g t ->
  exists l g', draws k t b g = Ok (l, g') /\ forall u, ready g u -> ready g' u.
Proof.
  intros Hd Ht. unfold draws. destruct (draw_ok Double g Hd) as (n & g1 & H1 & Hk1). rewrite H1. cbn [bind].
  destruct (draw_ok t g1 (Hk1 _ Ht)) as (m & g2 & H2 & Hk2).
  destruct k, b; try rewrite H2; cbn [bind]; eauto 6.
Qed.

Lemma draws_all_ok k t bs : forall g, ready g Double -> ready g t ->
  exists l g', draws_all k t bs g = Ok (l, g') /\ forall u, ready g u -> ready g' u.
Proof.
  induction bs as [|b bs IH]; intros g Hd Ht; cbn [draws_all]; [eauto|].
  destruct (draws_ok k t b g Hd Ht) as (l & g1 & H1 & Hk1). rewrite H1. cbn [bind].
  destruct (IH g1 (Hk1 _ Hd) (Hk1 _ Ht)) as (l' & g2 & H2 & Hk2). rewrite H2. cbn [bind]. eauto 7.
Qed.

(** Every space has its generator, and every planner those that it draws from. *)
Definition served (p : program) : Prop :=
  (forall t, In t (p_spaces p) -> ready (p_gens p) t) /\
  (forall k t, In (k, t) (p_planners p) -> ready (p_gens p) Double /\ ready (p_gens p) t).

(** An RRT* is made for a space of doubles, or when the generator of doubles is ready. *)
Definition star_ok (p : program) (c : call) : Prop :=
  match c with
  | MakePlanner KRrtStar i => match nth_error (p_spaces p) i with
                              | Some t => t = Double \/ ready (p_gens p) Double
                              | None => True
                              end
  | _ => True
  end.

Lemma nth_error_In' {T} (l : list T) i x : nth_error l i = Some x -> In x l.
Proof. apply nth_error_In. Qed.

Lemma served_step p c : served p -> star_ok p c ->
  match call_step p c with
  | Ok (_, p') => served p' /\ (forall u, ready (p_gens p) u -> ready (p_gens p') u)
  | Throw => True
  | _ => False
  end.
Proof.
  intros [Hs Hp] Hc. destruct c as [t|k i|i|j bs]; cbn [call_step].
  - split; [split; cbn [p_gens p_spaces p_planners]|cbn [p_gens]; intros u; apply init_keeps].
    + intros u Hu. apply in_app_or in Hu as [Hu|[<-|[]]]; [apply init_keeps; auto|apply init_ready].
    + intros k u Hu. destruct (Hp k u Hu). split; now apply init_keeps.
  - destruct (nth_error (p_spaces p) i) as [t|] eqn:Ei; auto. pose proof (nth_error_In' _ _ _ Ei) as Hin.
    destruct k.
    + split; [split; cbn [p_gens p_spaces p_planners]|cbn [p_gens]; intros u Hu; now do 2 apply init_keeps].
      * intros u Hu. do 2 apply init_keeps. auto.
      * intros k u Hu. apply in_app_or in Hu as [Hu|[Hu|[]]].
        -- destruct (Hp k u Hu). split; now do 2 apply init_keeps.
        -- injection Hu as <- <-. split; [apply init_ready|apply init_keeps, init_ready].
    + split; [split; cbn [p_gens p_spaces p_planners]|cbn [p_gens]; auto]; auto.
      intros k u Hu. apply in_app_or in Hu as [Hu|[Hu|[]]]; [now apply (Hp k)|]. injection Hu as <- <-.
      split; auto. cbn [star_ok] in Hc. rewrite Ei in Hc. destruct Hc as [->|Hc]; auto.
    + destruct (scalar_eqb t Double) eqn:Et; auto. apply scalar_eqb_eq in Et. subst t.
      split; [split; cbn [p_gens p_spaces p_planners]|cbn [p_gens]; auto]; auto.
      intros k u Hu. apply in_app_or in Hu as [Hu|[Hu|[]]]; [now apply (Hp k)|]. injection Hu as <- <-. split; auto.
  - destruct (nth_error (p_spaces p) i) as [t|] eqn:Ei; auto. pose proof (nth_error_In' _ _ _ Ei) as Hin.
    destruct (draw_ok t (p_gens p) (Hs _ Hin)) as (n & g & H & Hk). rewrite H. cbn [bind].
    split; [split; cbn [p_gens p_spaces p_planners]|cbn [p_gens]; auto]; auto.
    intros k u Hu. destruct (Hp k u Hu). auto.
  - destruct (nth_error (p_planners p) j) as [[k t]|] eqn:Ej; auto. pose proof (nth_error_In' _ _ _ Ej) as Hin.
    destruct (Hp k t Hin) as [Hd Ht].
    destruct (draws_all_ok k t bs (p_gens p) Hd Ht) as (l & g & H & Hk). rewrite H. cbn [bind].
    split; [split; cbn [p_gens p_spaces p_planners]|cbn [p_gens]; auto]; auto.
    intros k' u Hu. destruct (Hp k' u Hu). auto.
Qed.

(** Programs without spaces in single precision. *)
Definition all_double (p : program) : Prop := Forall (eq Double) (p_spaces p).

Lemma all_double_step p c p' l : all_double p -> c <> MakeSpace Float -> call_step p c = Ok (l, p') -> all_double p'.
Proof.
  unfold all_double. intros Hp Hc H. destruct c as [t|k i|i|j bs]; cbn [call_step] in H.
  - injection H as <- <-. cbn. apply Forall_app. split; auto. destruct t; [auto|congruence].
  - destruct (nth_error _ i) as [t|]; [|discriminate]. destruct k; [| |destruct (scalar_eqb t Double); [|discriminate]];
      injection H as <- <-; auto.
  - destruct (nth_error _ i) as [t|]; [|discriminate]. destruct (gen_draw t _) as [[n g]| | |]; try discriminate.
    injection H as <- <-. auto.
  - destruct (nth_error _ j) as [[k t]|]; [|discriminate]. destruct (draws_all k t bs _) as [[l0 g]| | |]; try discriminate.
    injection H as <- <-. auto.
Qed.

Lemma served_run (Q : program -> Prop) (R : call -> Prop) :
  (forall p c, Q p -> R c -> star_ok p c) ->
  (forall p c l p', Q p -> R c -> call_step p c = Ok (l, p') -> Q p') ->
  forall cs, (forall c, In c cs -> R c) -> forall p, Q p -> served p -> calls_run p cs <> UB.
Proof.
  intros HQ Hstep. induction cs as [|c cs IH]; intros Hcs p Hp Hs; cbn [calls_run]; [discriminate|].
  pose proof (served_step p c Hs (HQ p c Hp (Hcs c (or_introl eq_refl)))) as H.
  destruct (call_step p c) as [[l p1]| | |] eqn:E; cbn [bind]; try contradiction; [|discriminate].
  destruct H as [H _].
  pose proof (IH (fun c0 H0 => Hcs c0 (or_intror H0)) p1
                (Hstep _ _ _ _ Hp (Hcs c (or_introl eq_refl)) E) H) as Hr.
  destruct (calls_run p1 cs) as [[l' p2]| | |]; cbn [bind]; congruence.
Qed.

Lemma served_start : served p_start.
Proof. split; cbn; contradiction. Qed.

Lemma double_run cs : (forall c, In c cs -> c <> MakeSpace Float) -> calls_run p_start cs <> UB.
Proof.
  intros Hcs. apply (served_run all_double (fun c => c <> MakeSpace Float)); auto.
  - intros p c Hp _. destruct c as [t|[] i|i|j bs]; cbn [star_ok]; auto.
    destruct (nth_error (p_spaces p) i) as [t|] eqn:E; auto. left. apply nth_error_In in E.
    unfold all_double in Hp. rewrite Forall_forall in Hp. symmetry. auto.
  - intros p c l p' Hp Hc. now apply all_double_step.
  - constructor.
  - apply served_start.
Qed.

Lemma star_free_run cs : (forall c i, In c cs -> c <> MakePlanner KRrtStar i) -> calls_run p_start cs <> UB.
Proof.
  intros Hcs. apply (served_run (fun _ => True) (fun c => forall i, c <> MakePlanner KRrtStar i)); auto.
  - intros p c _ Hc. destruct c as [t|[] i|i|j bs]; cbn [star_ok]; auto. now destruct (Hc i).
  - apply served_start.
Qed.

(** After a space of doubles, or an RRT, everything may be made. *)
Lemma ready_run cs p : served p -> ready (p_gens p) Double -> calls_run p cs <> UB.
Proof.
  intros Hs Hd. apply (served_run (fun p => served p /\ ready (p_gens p) Double) (fun _ => True)); auto.
  - intros q c [_ Hq] _. destruct c as [t|[] i|i|j bs]; cbn [star_ok]; auto. destruct (nth_error (p_spaces q) i); auto.
  - intros q c l q' [Hq1 Hq2] _ H. assert (Hc : star_ok q c).
    { destruct c as [t|[] i|i|j bs]; cbn [star_ok]; auto. destruct (nth_error (p_spaces q) i); auto. }
    pose proof (served_step q c Hq1 Hc) as Hk. rewrite H in Hk. destruct Hk as [Hk1 Hk2]. auto.
Qed.

Lemma double_first_run cs : calls_run p_start (MakeSpace Double :: cs) <> UB.
Proof.
  cbn [calls_run call_step bind]. set (p1 := Program _ _ _).
  assert (H : calls_run p1 cs <> UB).
  { apply ready_run.
    - pose proof (served_step p_start (MakeSpace Double) served_start I) as H. apply H.
    - apply init_ready. }
  destruct (calls_run p1 cs) as [[l p2]| | |]; cbn [bind]; congruence.
Qed.

(** ** The sequences are never restarted. *)

(** The places of the numbers of type [t] among those drawn. *)
Definition places (t : scalar) (l : list (scalar * nat)) : list nat :=
  map snd (filter (fun x => scalar_eqb t (fst x)) l).
(** How many have been drawn. *)
Definition drawn (g : gens) (t : scalar) : nat := match g t with Some k => k | None => 0 end.
Definition goes_on (g : gens) (l : list (scalar * nat)) (g' : gens) : Prop :=
  forall t, places t l = seq (drawn g t) (length (places t l)) /\ drawn g' t = drawn g t + length (places t l).

Lemma goes_on_nil g : goes_on g [] g.
Proof. intros t. cbn. split; auto. Qed.
Lemma goes_on_app g1 l1 g2 l2 g3 : goes_on g1 l1 g2 -> goes_on g2 l2 g3 -> goes_on g1 (l1 ++ l2) g3.
Proof.
  intros H1 H2 t. destruct (H1 t) as [Ha Hb], (H2 t) as [Hc Hd].
  assert (E : places t (l1 ++ l2) = places t l1 ++ places t l2) by (unfold places; now rewrite filter_app, map_app).
  rewrite E, app_length, seq_app, <- Ha, <- Hb, <- Hc. split; auto. lia.
Qed.
Lemma goes_on_init t g l g' : goes_on (gen_init t g) l g' -> goes_on g l g'.
Proof.
  intros H u. specialize (H u). unfold drawn, gen_init in *. destruct (g t) eqn:E; auto.
  unfold gens_set in H. destruct t, u; cbn [scalar_eqb] in H; try rewrite E; auto.
Qed.
Lemma goes_on_draw t g n g' : gen_draw t g = Ok (n, g') -> goes_on g [(t, n)] g'.
Proof.
  unfold gen_draw. destruct (g t) as [k|] eqn:E; [|discriminate]. intros H. injection H as <- <-.
  intros u. unfold places, drawn, gens_set. destruct t, u; cbn; rewrite ?E; split; auto; lia.
Qed.
Lemma goes_on_draws k t b g l g' : draws k t b g = Ok (l, g') -> goes_on g l g'.
Proof.
  unfold draws. destruct (gen_draw Double g) as [[n g1]| | |] eqn:E1; cbn [bind]; try discriminate.
  apply goes_on_draw in E1. intros H.
  assert (H' : (l = [(Double, n)] /\ g' = g1) \/
               (exists m, gen_draw t g1 = Ok (m, g') /\ l = [(Double, n)] ++ [(t, m)])).
  { destruct k, b; try (injection H as <- <-; auto);
      destruct (gen_draw t g1) as [[m g2]| | |] eqn:E2; cbn [bind] in H; try discriminate; injection H as <- <-; eauto. }
  destruct H' as [[-> ->]|(m & E2 & ->)]; auto. apply goes_on_draw in E2. eapply goes_on_app; eauto.
Qed.
Lemma goes_on_all k t bs : forall g l g', draws_all k t bs g = Ok (l, g') -> goes_on g l g'.
Proof.
  induction bs as [|b bs IH]; intros g l g' H; cbn [draws_all] in H.
  - injection H as <- <-. apply goes_on_nil.
  - destruct (draws k t b g) as [[l1 g1]| | |] eqn:E1; cbn [bind] in H; try discriminate.
    destruct (draws_all k t bs g1) as [[l2 g2]| | |] eqn:E2; cbn [bind] in H; try discriminate.
    injection H as <- <-. eapply goes_on_app; eauto using goes_on_draws.
Qed.
Lemma goes_on_step p c l p' : call_step p c = Ok (l, p') -> goes_on (p_gens p) l (p_gens p').
Proof.
  intros H. destruct c as [t|k i|i|j bs]; cbn [call_step] in H.
  - injection H as <- <-. eapply goes_on_init, goes_on_nil.
  - destruct (nth_error _ i) as [t|]; [|discriminate]. destruct k; [| |destruct (scalar_eqb t Double); [|discriminate]];
      injection H as <- <-; cbn [p_gens].
    + eapply goes_on_init, goes_on_init, goes_on_nil.
    + apply goes_on_nil.
    + apply goes_on_nil.
  - destruct (nth_error _ i) as [t|]; [|discriminate]. destruct (gen_draw t _) as [[n g]| | |] eqn:E; try discriminate.
    injection H as <- <-. now apply goes_on_draw.
  - destruct (nth_error _ j) as [[k t]|]; [|discriminate].
    destruct (draws_all k t bs _) as [[l0 g]| | |] eqn:E; try discriminate.
    injection H as <- <-. eapply goes_on_all; eauto.
Qed.
Lemma goes_on_run cs : forall p l p', calls_run p cs = Ok (l, p') -> goes_on (p_gens p) l (p_gens p').
Proof.
  induction cs as [|c cs IH]; intros p l p' H; cbn [calls_run] in H.
  - injection H as <- <-. apply goes_on_nil.
  - destruct (call_step p c) as [[l1 p1]| | |] eqn:E1; cbn [bind] in H; try discriminate.
    destruct (calls_run p1 cs) as [[l2 p2]| | |] eqn:E2; cbn [bind] in H; try discriminate.
    injection H as <- <-. eapply goes_on_app; eauto using goes_on_step.
Qed.

Lemma run_places cs l p t : calls_run p_start cs = Ok (l, p) ->
  map snd (filter (fun x => scalar_eqb t (fst x)) l) = seq 0 (length (filter (fun x => scalar_eqb t (fst x)) l)).
Proof.
  intros H. destruct (goes_on_run _ _ _ _ H t) as [Ha _]. unfold places in Ha. rewrite map_length in Ha. exact Ha.
Qed.
