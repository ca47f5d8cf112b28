(** Proofs about heuristics as shared objects. *)
From Verif Require Import Base Frontier_model AStar_model Bidir_model HeurObj_model HeurObj_spec.

Section Proofs.
  Context {S A C : Type}.
  Variable eqs : S -> S -> bool.
  Variables (ltb : C -> C -> bool) (add : C -> C -> C) (zero : C).
  Variables (vmax : C -> C -> C) (bottom : C) (half : C -> C) (avg : C -> C -> C -> C).
  Implicit Type hp : heap S C.

  (** Two objects that differ in what a search writes only. *)
  Definition alike (a b : hobj S C) : Prop :=
    match a, b with
    | HFcn f _, HFcn f' _ => f = f'
    | HAverage x y _, HAverage x' y' _ => x = x' /\ y = y'
    | HCombined l, HCombined l' => l = l'
    | HAdapter i f, HAdapter i' f' => i = i' /\ f = f'
    | _, _ => False
    end.

  Lemma alike_refl a : alike a a.
  Proof. destruct a; cbn; auto. Qed.
  Lemma alike_trans a b c : alike a b -> alike b c -> alike a c.
  Proof. destruct a, b; cbn; try contradiction; destruct c; cbn; try contradiction; intuition congruence. Qed.

  Definition same hp hp' : Prop := forall i o, nth_error hp i = Some o -> exists o', nth_error hp' i = Some o' /\ alike o o'.

  Lemma same_refl hp : same hp hp.
  Proof. intros i o H. exists o. split; [auto|apply alike_refl]. Qed.
  Lemma same_trans a b c : same a b -> same b c -> same a c.
  Proof.
    intros H1 H2 i o H. destruct (H1 i o H) as (o' & H' & K). destruct (H2 i o' H') as (o'' & H'' & K').
    exists o''. split; [auto|]. eapply alike_trans; eauto.
  Qed.
  Lemma same_app hp l : same hp (hp ++ l).
  Proof.
    intros i o H. exists o. split; [|apply alike_refl].
    rewrite nth_error_app1; [auto|]. apply nth_error_Some. congruence.
  Qed.

  Lemma nth_put hp id o x i : nth_error hp id = Some o -> nth_error (put hp id x) i = if Nat.eqb i id then Some x else nth_error hp i.
  Proof.
    intros H. unfold put. revert id i H. induction hp as [|y hp IH]; intros [|id] [|i] H; cbn in *; try discriminate; auto.
  Qed.
  Lemma same_put hp id o x : nth_error hp id = Some o -> alike o x -> same hp (put hp id x).
  Proof.
    intros H Hx i y Hy. rewrite (nth_put _ _ _ _ _ H). destruct (Nat.eqb i id) eqn:E.
    - apply Nat.eqb_eq in E. subst i. exists x. split; [auto|]. congruence.
    - exists y. split; [auto|apply alike_refl].
  Qed.

  (** The loop of [set_goal] over the parts of a combination. *)
  Definition over (f : heap S C -> nat -> res (heap S C)) : heap S C -> list nat -> res (heap S C) :=
    fix loop hp ids :=
      match ids with
      | [] => Ok hp
      | i :: r => do hp1 <- f hp i; loop hp1 r
      end.
  Definition gather (f : nat -> res (S -> C)) : list nat -> res (list (S -> C)) :=
    fix loop ids :=
      match ids with
      | [] => Ok []
      | i :: r => do h <- f i; do hs <- loop r; Ok (h :: hs)
      end.
  Lemma over_cons f hp i r : over f hp (i :: r) = do hp1 <- f hp i; over f hp1 r.
  Proof. reflexivity. Qed.
  Lemma gather_cons f i r : gather f (i :: r) = do h <- f i; do hs <- gather f r; Ok (h :: hs).
  Proof. reflexivity. Qed.

  Lemma set_goal_S d hp id g :
    set_goal (Datatypes.S d) hp id g =
    match nth_error hp id with
    | None => UB
    | Some (HFcn func _) => Ok (put hp id (HFcn func g))
    | Some (HCombined parts) => over (fun hp i => set_goal d hp i g) hp parts
    | Some (HAdapter inner func) => set_goal d hp inner (func g)
    | Some (HAverage _ _ _) => Ok hp
    end.
  Proof. reflexivity. Qed.

  Notation val := (value vmax bottom avg).
  Notation est := (estimates vmax bottom).

  Lemma value_S d hp id :
    val (Datatypes.S d) hp id =
    match nth_error hp id with
    | None => UB
    | Some (HFcn func goal) => Ok (fun s => func s goal)
    | Some (HCombined parts) => do hs <- gather (val d hp) parts; Ok (fun s => fold_left (fun v h => vmax v (h s)) hs bottom)
    | Some (HAdapter inner func) => do h <- val d hp inner; Ok (fun s => h (func s))
    | Some (HAverage toGoal toInit constant) =>
      do a <- val d hp toGoal; do b <- val d hp toInit; Ok (fun s => avg constant (a s) (b s))
    end.
  Proof. reflexivity. Qed.

  Lemma set_goal_same d : forall hp id g hp', set_goal d hp id g = Ok hp' -> same hp hp'.
  Proof.
    induction d as [|d IH]; intros hp id g hp'; [discriminate|]. rewrite set_goal_S.
    destruct (nth_error hp id) as [[func x|parts|inner func|x y k]|] eqn:E; try discriminate.
    - intros [= <-]. eapply same_put; [eassumption|]. reflexivity.
    - clear E. revert hp. induction parts as [|i r IHr]; intros hp.
      + intros [= <-]. apply same_refl.
      + rewrite over_cons. destruct (set_goal d hp i g) as [hp1| | |] eqn:Ei; cbn [bind]; try discriminate.
        intros H. eapply same_trans; [eapply IH; eassumption|]. apply IHr, H.
    - apply IH.
    - intros [= <-]. apply same_refl.
  Qed.

  Lemma Forall2_same {X Y} (P Q : X -> Y -> Prop) l m : (forall x y, P x y -> Q x y) -> Forall2 P l m -> Forall2 Q l m.
  Proof. intros H. induction 1; auto. Qed.

  Lemma estimates_same hp hp' : same hp hp' -> forall d id h, est d hp id h -> est d hp' id h.
  Proof.
    intros Hs. induction d as [|d IH]; intros id h; cbn [estimates]; [auto|].
    destruct (nth_error hp id) as [o|] eqn:E; [|contradiction]. destruct (Hs _ _ E) as (o' & -> & Ho).
    destruct o, o'; cbn in Ho; try contradiction; auto.
    - subst; auto.
    - subst parts0. intros (hs & H & K). exists hs. split; [|auto]. eapply Forall2_same; [|eassumption]. auto.
    - destruct Ho as [-> ->]. intros (e & H & K). exists e. auto.
  Qed.

  Lemma leaves_same hp hp' : same hp hp' -> forall d id h, est d hp id h -> leaves d hp' id = leaves d hp id.
  Proof.
    intros Hs. induction d as [|d IH]; intros id h; cbn [estimates leaves]; [auto|].
    destruct (nth_error hp id) as [o|] eqn:E; [|contradiction]. destruct (Hs _ _ E) as (o' & -> & Ho).
    destruct o, o'; cbn in Ho; try contradiction; auto.
    - subst parts0. intros (hs & H & _). clear E. induction H as [|x y l m Hx _ IHl]; [auto|]. cbn [flat_map].
      rewrite IHl. f_equal. eapply IH; eassumption.
    - destruct Ho as [-> ->]. intros (e & H & _). eapply IH; eassumption.
  Qed.

  (** The functions that an object consults have the goal [g]. *)
  Fixpoint aimed (d : nat) hp (id : nat) (g : S) : Prop :=
    match d with
    | O => True
    | Datatypes.S d =>
      match nth_error hp id with
      | Some (HFcn _ goal) => goal = g
      | Some (HCombined parts) => Forall (fun i => aimed d hp i g) parts
      | Some (HAdapter inner func) => aimed d hp inner (func g)
      | _ => True
      end
    end.

  Lemma aimed_value depth : forall d hp id h g, d <= depth -> est d hp id h -> aimed d hp id g -> val depth hp id = Ok (h g).
  Proof.
    induction depth as [|depth IH]; intros d hp id h g Hd He Ha.
    - destruct d; [contradiction|lia].
    - destruct d as [|d]; [contradiction|]. rewrite value_S. cbn [estimates aimed] in *.
      destruct (nth_error hp id) as [[func x|parts|inner func|x y k]|]; try contradiction.
      + subst. reflexivity.
      + destruct He as (hs & H & ->).
        assert (K : gather (val depth hp) parts = Ok (map (fun e => e g) hs)).
        { induction H as [|x y l m Hx _ IHl]; [reflexivity|]. inversion Ha as [|? ? A1 A2]; subst. rewrite gather_cons. cbn [map].
          rewrite (IH d hp x y g) by (auto; lia). cbn [bind]. rewrite IHl by auto. reflexivity. }
        rewrite K. reflexivity.
      + destruct He as (e & H & ->). rewrite (IH d hp inner e (func g)) by (auto; lia). reflexivity.
  Qed.

  (** Objects with the same functions, and the same goals where it matters. *)
  Lemma aimed_frame hp hp' : same hp hp' -> forall d id h g,
    est d hp id h -> (forall i, In i (leaves d hp id) -> nth_error hp' i = nth_error hp i) -> aimed d hp id g -> aimed d hp' id g.
  Proof.
    intros Hs. induction d as [|d IH]; intros id h g; cbn [estimates leaves aimed]; [auto|].
    destruct (nth_error hp id) as [o|] eqn:E; [|contradiction]. destruct (Hs _ _ E) as (o' & E' & Ho). rewrite E'.
    destruct o, o'; cbn in Ho; try contradiction; auto.
    - intros _ H <-. specialize (H id). rewrite E, E' in H. cbn in H.
      assert (K : Some (HFcn func0 goal0) = Some (HFcn func goal)) by auto. congruence.
    - subst parts0. intros (hs & H & _) Hl. clear E E'. induction H as [|x y l m Hx _ IHl]; [auto|]. intros Ha.
      inversion Ha as [|? ? A1 A2]; subst. constructor.
      + eapply IH; eauto. intros i Hi. apply Hl. cbn. apply in_or_app. auto.
      + apply IHl; auto. intros i Hi. apply Hl. cbn. apply in_or_app. auto.
    - destruct Ho as [-> ->]. intros (e & H & _) Hl. eapply IH; eassumption.
  Qed.

  Lemma nodup_app {X} (l m : list X) : NoDup (l ++ m) -> NoDup l /\ NoDup m /\ forall x, In x l -> ~ In x m.
  Proof.
    induction l as [|x l IH]; cbn; intros H.
    - split; [constructor|]. auto.
    - inversion H as [|? ? H1 H2]; subst. destruct (IH H2) as (H3 & H4 & H5). split; [|split; [auto|]].
      + constructor; [|auto]. intros K. apply H1, in_or_app. auto.
      + intros y [<-|Hy] K; [|eapply H5; eauto]. apply H1, in_or_app. auto.
  Qed.

  Lemma set_goal_aims depth : forall d hp id h g,
    d <= depth -> est d hp id h -> NoDup (leaves d hp id) ->
    exists hp', set_goal depth hp id g = Ok hp' /\ aimed d hp' id g /\
      forall i, ~ In i (leaves d hp id) -> nth_error hp' i = nth_error hp i.
  Proof.
    induction depth as [|depth IH]; intros d hp id h g Hd He Hn.
    - destruct d; [contradiction|lia].
    - destruct d as [|d]; [contradiction|]. rewrite set_goal_S. cbn [estimates leaves] in He, Hn. cbn [leaves].
      destruct (nth_error hp id) as [[func x|parts|inner func|x y k]|] eqn:E; try contradiction.
      + eexists. split; [reflexivity|]. split.
        * cbn [aimed]. rewrite (nth_put _ _ _ _ _ E), Nat.eqb_refl. reflexivity.
        * intros i Hi. rewrite (nth_put _ _ _ _ _ E). destruct (Nat.eqb i id) eqn:Ei; [|auto].
          apply Nat.eqb_eq in Ei. subst. exfalso. apply Hi. left. auto.
      + destruct He as (hs & H & _).
        assert (K : exists hp', over (fun hp i => set_goal depth hp i g) hp parts = Ok hp' /\ same hp hp' /\
                      Forall (fun i => aimed d hp' i g) parts /\
                      forall i, ~ In i (flat_map (leaves d hp) parts) -> nth_error hp' i = nth_error hp i).
        { assert (Hd' : d <= depth) by lia. clear E Hd. revert hp H Hn. revert hs. induction parts as [|p r IHr]; intros hs hp H Hn.
          - exists hp. cbn. repeat split; auto using same_refl.
          - inversion H as [|? y ? m Hp Hr]; subst. cbn [flat_map] in Hn.
            destruct (nodup_app _ _ Hn) as (N1 & N2 & N3).
            destruct (IH d hp p y g Hd' Hp N1) as (hp1 & E1 & A1 & F1).
            pose proof (set_goal_same _ _ _ _ _ E1) as S1.
            assert (L1 : forall q e, est d hp q e -> leaves d hp1 q = leaves d hp q) by (intros; eapply leaves_same; eauto).
            assert (L2 : flat_map (leaves d hp1) r = flat_map (leaves d hp) r).
            { clear - Hr L1. induction Hr as [|a b l k Ha _ IHl]; [reflexivity|]. cbn. rewrite IHl. f_equal. eauto. }
            destruct (IHr m hp1) as (hp2 & E2 & S2 & A2 & F2).
            { eapply Forall2_same; [|exact Hr]. intros q e He. eapply estimates_same; eauto. }
            { rewrite L2. auto. }
            exists hp2. rewrite over_cons, E1. cbn [bind]. split; [auto|]. split; [eapply same_trans; eauto|]. split.
            + constructor; [|auto]. eapply (aimed_frame hp1 hp2 S2).
              * eapply estimates_same; eauto.
              * intros i Hi. rewrite (L1 p y Hp) in Hi. apply F2. rewrite L2. auto.
              * auto.
            + intros i Hi. cbn [flat_map] in Hi. rewrite F2.
              * apply F1. intros K. apply Hi, in_or_app. auto.
              * rewrite L2. intros K. apply Hi, in_or_app. auto. }
        destruct K as (hp' & E' & S' & A' & F'). exists hp'. split; [auto|]. split; [|auto].
        cbn [aimed]. destruct (S' _ _ E) as (o' & -> & Ho). destruct o'; cbn in Ho; try contradiction. subst. auto.
      + destruct He as (e & H & _). destruct (IH d hp inner e (func g)) as (hp' & E' & A' & F'); auto; [lia|].
        pose proof (set_goal_same _ _ _ _ _ E') as S'.
        exists hp'. split; [auto|]. split; [|auto].
        cbn [aimed]. destruct (S' _ _ E) as (o' & -> & Ho). destruct o'; cbn in Ho; try contradiction. destruct Ho as [-> ->]. auto.
  Qed.

  (** ** Planners *)
  Lemma nth_set {X} (l : list X) p x y i :
    nth_error l p = Some y -> nth_error (firstn p l ++ x :: skipn (Datatypes.S p) l) i = if Nat.eqb i p then Some x else nth_error l i.
  Proof.
    revert p i. induction l as [|z l IH]; intros [|p] [|i] H; cbn in *; try discriminate; auto.
  Qed.

  Lemma nth_put_planner (w : world S A C) p x y i :
    nth_error (w_planners w) p = Some y ->
    nth_error (w_planners (put_planner w p x)) i = if Nat.eqb i p then Some x else nth_error (w_planners w) i.
  Proof. intros H. unfold put_planner. cbn [w_planners]. eapply nth_set; eauto. Qed.

  Variable graph : bool.
  Variables depth fuel : nat.
  Notation stp := (step eqs ltb add zero vmax bottom half avg graph depth fuel).
  Notation runs := (run eqs ltb add zero vmax bottom half avg graph depth fuel).

  Lemma update_average_same hp id g hp' : update_average vmax bottom half avg depth hp id g = Ok hp' -> same hp hp'.
  Proof.
    unfold update_average. destruct (nth_error hp id) as [[]|] eqn:E; try discriminate.
    destruct (val depth hp toInit); cbn [bind]; try discriminate. intros [= <-]. eapply same_put; [eassumption|]. cbn. auto.
  Qed.

  Lemma update_averages_same hp fa ra i g hp' : update_averages vmax bottom half avg depth hp fa ra i g = Ok hp' -> same hp hp'.
  Proof.
    unfold update_averages. destruct fa as [a|], ra as [b|]; try (intros [= <-]; apply same_refl).
    destruct (update_average _ _ _ _ _ _ a g) as [hp1| | |] eqn:E; cbn [bind]; try discriminate. intros H.
    eapply same_trans; eapply update_average_same; eauto.
  Qed.

  (** What a planner keeps between calls. *)
  Definition kept (x y : planner S A C) : Prop :=
    match pl_solver x, pl_solver y with
    | Uni a _, Uni b _ => a = b
    | Duo f r fa ra ok _, Duo f' r' fa' ra' ok' _ => f = f' /\ r = r' /\ fa = fa' /\ ra = ra' /\ ok = ok'
    | _, _ => False
    end.
  Lemma kept_refl x : kept x x.
  Proof. unfold kept. destruct (pl_solver x); auto. Qed.

  Definition quiet (p : nat) (c : call S A C) : Prop :=
    match c with
    | AddPart _ _ => False
    | InitAStar q _ _ => q <> p
    | InitBidirectional q _ _ _ _ => q <> p
    | _ => True
    end.

  Lemma step_keeps w p x c a w' :
    nth_error (w_planners w) p = Some x -> quiet p c -> stp w c = Ok (a, w') ->
    same (w_heap w) (w_heap w') /\
    exists y, nth_error (w_planners w') p = Some y /\ kept x y /\
      pl_init y = init_after p [c] (pl_init x) /\ pl_goal y = goal_after p [c] (pl_goal x).
  Proof.
    intros Hp Hq.
    assert (Hap : forall z, nth_error (w_planners w ++ [z]) p = Some x).
    { intros z. rewrite nth_error_app1; [auto|]. apply nth_error_Some. congruence. }
    destruct c as [o|id part|d|d|q s|q s|q pr h|q fp rp fh rh|q]; cbn [step quiet] in *; try contradiction.
    - intros [= <- <-]. split; [apply same_app|]. exists x. split; [auto|]. split; [apply kept_refl|]. auto.
    - intros [= <- <-]. split; [apply same_refl|]. exists x. split; [apply Hap|]. split; [apply kept_refl|]. auto.
    - intros [= <- <-]. split; [apply same_refl|]. exists x. split; [apply Hap|]. split; [apply kept_refl|]. auto.
    - destruct (nth_error (w_planners w) q) as [z|] eqn:Eq; [|discriminate]. intros [= <- <-]. split; [apply same_refl|].
      rewrite (nth_put_planner _ _ _ _ _ Eq). cbn [init_after goal_after fold_left]. rewrite (Nat.eqb_sym q p).
      destruct (Nat.eqb p q) eqn:E.
      + apply Nat.eqb_eq in E. subst q. assert (z = x) by congruence. subst z. eexists. split; [reflexivity|].
        split; [|auto]. exact (kept_refl x).
      + exists x. split; [auto|]. split; [apply kept_refl|]. auto.
    - destruct (nth_error (w_planners w) q) as [z|] eqn:Eq; [|discriminate]. intros [= <- <-]. split; [apply same_refl|].
      rewrite (nth_put_planner _ _ _ _ _ Eq). cbn [init_after goal_after fold_left]. rewrite (Nat.eqb_sym q p).
      destruct (Nat.eqb p q) eqn:E.
      + apply Nat.eqb_eq in E. subst q. assert (z = x) by congruence. subst z. eexists. split; [reflexivity|].
        split; [|auto]. exact (kept_refl x).
      + exists x. split; [auto|]. split; [apply kept_refl|]. auto.
    - destruct (nth_error (w_planners w) q) as [[i g [su sol|]]|] eqn:Eq; try discriminate. intros [= <- <-]. split; [apply same_refl|].
      rewrite (nth_put_planner _ _ _ _ _ Eq). replace (Nat.eqb p q) with false by (symmetry; apply Nat.eqb_neq; auto).
      exists x. split; [auto|]. split; [apply kept_refl|]. auto.
    - destruct (nth_error (w_planners w) q) as [[i g [|f r fa ra ok sol]]|] eqn:Eq; try discriminate.
      destruct (initialize_both (w_heap w) f r fa ra fp rp fh rh) as [[[[f' r'] fa'] ra'] ok'].
      intros [= <- <-]. split; [apply same_refl|].
      rewrite (nth_put_planner _ _ _ _ _ Eq). replace (Nat.eqb p q) with false by (symmetry; apply Nat.eqb_neq; auto).
      exists x. split; [auto|]. split; [apply kept_refl|]. auto.
    - destruct (nth_error (w_planners w) q) as [[i g [su sol|f r fa ra ok sol]]|] eqn:Eq; try discriminate.
      + destruct (su_ok su).
        2:{ intros [= <- <-]. split; [apply same_refl|]. exists x. split; [auto|]. split; [apply kept_refl|]. auto. }
        destruct (su_held su) as [[pr id]|]; [|discriminate].
        destruct (set_goal depth (w_heap w) id g) as [hp| | |] eqn:Es; cbn [bind]; try discriminate.
        destruct (val depth hp id) as [h| | |]; cbn [bind]; try discriminate.
        match goal with |- bind ?r _ = _ -> _ => destruct r as [[sol' st]| | |]; cbn [bind]; try discriminate end.
        intros [= <- <-]. split; [eapply set_goal_same; eauto|].
        rewrite (nth_put_planner (World hp (w_planners w)) _ _ _ _ Eq). cbn [init_after goal_after fold_left w_planners].
        destruct (Nat.eqb p q) eqn:E.
        * apply Nat.eqb_eq in E. subst q. assert (x = Planner i g (Uni su sol)) by congruence. subst x.
          eexists. split; [reflexivity|]. split; [reflexivity|]. auto.
        * exists x. split; [auto|]. split; [apply kept_refl|]. auto.
      + destruct ok.
        2:{ intros [= <- <-]. split; [apply same_refl|]. exists x. split; [auto|]. split; [apply kept_refl|]. auto. }
        destruct (update_averages _ _ _ _ _ _ _ _ _ _) as [hp0| | |] eqn:Eu; cbn [bind]; try discriminate.
        destruct (su_held f) as [[fp fid]|]; [|discriminate]. destruct (su_held r) as [[rp rid]|]; [|discriminate].
        destruct (set_goal depth hp0 fid g) as [hp1| | |] eqn:E1; cbn [bind]; try discriminate.
        destruct (set_goal depth hp1 rid i) as [hp2| | |] eqn:E2; cbn [bind]; try discriminate.
        destruct (val depth hp2 fid) as [hf| | |]; cbn [bind]; try discriminate.
        destruct (val depth hp2 rid) as [hr| | |]; cbn [bind]; try discriminate.
        match goal with |- bind ?r _ = _ -> _ => destruct r as [[found b]| | |]; cbn [bind]; try discriminate end.
        intros [= <- <-]. split.
        { cbn [put_planner w_heap]. eapply same_trans; [eapply update_averages_same; eauto|].
          eapply same_trans; eapply set_goal_same; eauto. }
        rewrite (nth_put_planner (World hp2 (w_planners w)) _ _ _ _ Eq). cbn [init_after goal_after fold_left w_planners].
        destruct (Nat.eqb p q) eqn:E.
        * apply Nat.eqb_eq in E. subst q. assert (x = Planner i g (Duo f r fa ra true sol)) by congruence. subst x.
          eexists. split; [reflexivity|]. split; [cbn; auto 8|]. auto.
        * exists x. split; [auto|]. split; [apply kept_refl|]. auto.
  Qed.

  Lemma kept_trans x y z : kept x y -> kept y z -> kept x z.
  Proof. unfold kept. destruct (pl_solver x), (pl_solver y); try contradiction; destruct (pl_solver z); try contradiction; intuition congruence. Qed.

  Lemma run_keeps cs : forall w p x l w',
    nth_error (w_planners w) p = Some x -> leaves_alone p cs -> runs w cs = Ok (l, w') ->
    same (w_heap w) (w_heap w') /\
    exists y, nth_error (w_planners w') p = Some y /\ kept x y /\
      pl_init y = init_after p cs (pl_init x) /\ pl_goal y = goal_after p cs (pl_goal x).
  Proof.
    induction cs as [|c cs IH]; intros w p x l w' Hp Hq.
    - intros [= <- <-]. split; [apply same_refl|]. exists x. split; [auto|]. split; [apply kept_refl|]. auto.
    - inversion Hq as [|? ? Q1 Q2]; subst. cbn [run].
      destruct (stp w c) as [[a w1]| | |] eqn:E; cbn [bind]; try discriminate.
      destruct (runs w1 cs) as [[l2 w2]| | |] eqn:E2; cbn [bind]; try discriminate. intros [= <- <-].
      destruct (step_keeps w p x c a w1 Hp Q1 E) as (S1 & y & Y1 & Y2 & Y3 & Y4).
      destruct (IH w1 p y l2 w2 Y1 Q2 E2) as (S2 & z & Z1 & Z2 & Z3 & Z4).
      split; [eapply same_trans; eauto|]. exists z. split; [auto|]. split; [eapply kept_trans; eauto|].
      rewrite Z3, Z4, Y3, Y4. auto.
  Qed.

  (** ** Searches *)
  Lemma uni_search (w : world S A C) p i g (prop : propagator S A C) id sol d h :
    nth_error (w_planners w) p = Some (Planner i g (Uni (Setup (Some (prop, id)) true) sol)) ->
    est d (w_heap w) id h -> NoDup (leaves d (w_heap w) id) -> d <= depth ->
    shown add zero p (stp w (SearchPath p)) = alone (A:=A) eqs ltb add zero graph fuel (h g) prop i g.
  Proof.
    intros Hp He Hn Hd. cbn [step]. rewrite Hp. cbn [su_ok su_held].
    destruct (set_goal_aims depth d (w_heap w) id h g Hd He Hn) as (hp & E & Ha & _). rewrite E. cbn [bind].
    pose proof (set_goal_same _ _ _ _ _ E) as Hs.
    rewrite (aimed_value depth d hp id h g Hd) by (auto; eapply estimates_same; eauto). cbn [bind]. unfold alone.
    destruct (search_path eqs ltb add zero (h g) _ _ _ _ _ _ _) as [[sol' st]| | |]; cbn [bind rmap shown]; try reflexivity.
    unfold shown. cbn [rmap fst snd]. unfold results_of.
    rewrite (nth_put_planner (World hp (w_planners w)) _ _ _ _ Hp), Nat.eqb_refl. reflexivity.
  Qed.

  Lemma duo_search (w : world S A C) p i g (fp rp : propagator S A C) fid rid sol d hf hr :
    nth_error (w_planners w) p =
      Some (Planner i g (Duo (Setup (Some (fp, fid)) true) (Setup (Some (rp, rid)) true) None None true sol)) ->
    est d (w_heap w) fid hf -> est d (w_heap w) rid hr -> NoDup (leaves d (w_heap w) fid ++ leaves d (w_heap w) rid) -> d <= depth ->
    shown add zero p (stp w (SearchPath p)) = both_alone (A:=A) eqs ltb add zero graph fuel (hf g) (hr i) fp rp i g.
  Proof.
    intros Hp Hf Hr Hn Hd. destruct (nodup_app _ _ Hn) as (N1 & N2 & N3).
    cbn [step]. rewrite Hp. cbn [su_ok su_held update_averages bind].
    destruct (set_goal_aims depth d (w_heap w) fid hf g Hd Hf N1) as (hp1 & E1 & A1 & F1). rewrite E1. cbn [bind].
    pose proof (set_goal_same _ _ _ _ _ E1) as S1.
    assert (Hf1 : est d hp1 fid hf) by (eapply estimates_same; eauto).
    assert (Hr1 : est d hp1 rid hr) by (eapply estimates_same; eauto).
    destruct (set_goal_aims depth d hp1 rid hr i Hd Hr1) as (hp2 & E2 & A2 & F2).
    { rewrite (leaves_same _ _ S1 d rid hr Hr). auto. }
    rewrite E2. cbn [bind]. pose proof (set_goal_same _ _ _ _ _ E2) as S2.
    rewrite (aimed_value depth d hp2 fid hf g Hd).
    2:{ eapply estimates_same; eauto. }
    2:{ eapply (aimed_frame hp1 hp2 S2); eauto. intros j Hj. apply F2.
        rewrite (leaves_same _ _ S1 d rid hr Hr). rewrite (leaves_same _ _ S1 d fid hf Hf) in Hj. auto. }
    rewrite (aimed_value depth d hp2 rid hr i Hd) by (auto; eapply estimates_same; eauto). cbn [bind]. unfold both_alone.
    match goal with |- context [bi_search ?a ?b ?c ?d ?e ?f ?g ?h ?i ?j ?k ?l ?m ?n] =>
      destruct (bi_search a b c d e f g h i j k l m n) as [[found b']| | |]; cbn [bind rmap shown]; try reflexivity end.
    unfold shown. cbn [rmap fst snd]. unfold results_of.
    rewrite (nth_put_planner (World hp2 (w_planners w)) _ _ _ _ Hp), Nat.eqb_refl. reflexivity.
  Qed.

  (** An object that estimates is not an average. *)
  Lemma estimates_not_average d hp id h prop : est d hp id h -> as_average (A:=A) hp (Some (prop, id)) = None.
  Proof. destruct d; cbn; [contradiction|]. destruct (nth_error hp id) as [[]|]; auto; contradiction. Qed.

  Lemma init_uni (w : world S A C) p i g x sol (prop : propagator S A C) id a w1 :
    nth_error (w_planners w) p = Some (Planner i g (Uni x sol)) ->
    stp w (InitAStar p (Some prop) (Some id)) = Ok (a, w1) ->
    a = Initialized true /\ w_heap w1 = w_heap w /\
    nth_error (w_planners w1) p = Some (Planner i g (Uni (Setup (Some (prop, id)) true) sol)).
  Proof.
    intros Hp. cbn [step]. rewrite Hp. intros [= <- <-]. split; [auto|]. split; [auto|].
    rewrite (nth_put_planner _ _ _ _ _ Hp), Nat.eqb_refl. reflexivity.
  Qed.

  Lemma init_duo (w : world S A C) p i g f r fa ra ok sol (fp rp : propagator S A C) fid rid a w1 :
    nth_error (w_planners w) p = Some (Planner i g (Duo f r fa ra ok sol)) ->
    stp w (InitBidirectional p (Some fp) (Some rp) (Some fid) (Some rid)) = Ok (a, w1) ->
    a = Initialized true /\ w_heap w1 = w_heap w /\
    nth_error (w_planners w1) p = Some (Planner i g (Duo (Setup (Some (fp, fid)) true) (Setup (Some (rp, rid)) true)
      (as_average (w_heap w) (Some (fp, fid))) (as_average (w_heap w) (Some (rp, rid))) true sol)).
  Proof.
    intros Hp. cbn [step]. rewrite Hp. cbn [initialize_both initialize su_ok su_held negb]. intros [= <- <-].
    split; [auto|]. split; [auto|]. rewrite (nth_put_planner _ _ _ _ _ Hp), Nat.eqb_refl. reflexivity.
  Qed.

  Lemma shared_uni (w : world S A C) p i g x sol (prop : propagator S A C) id a w1 cs l w2 d h :
    nth_error (w_planners w) p = Some (Planner i g (Uni x sol)) ->
    stp w (InitAStar p (Some prop) (Some id)) = Ok (a, w1) -> leaves_alone p cs -> runs w1 cs = Ok (l, w2) ->
    est d (w_heap w) id h -> NoDup (leaves d (w_heap w) id) -> d <= depth ->
    a = Initialized true /\
    shown add zero p (stp w2 (SearchPath p)) =
    alone (A:=A) eqs ltb add zero graph fuel (h (goal_after p cs g)) prop (init_after p cs i) (goal_after p cs g).
  Proof.
    intros Hp Hi Hc Hrun He Hn Hd. destruct (init_uni _ _ _ _ _ _ _ _ _ _ Hp Hi) as (-> & Hh & Hp1). split; [auto|].
    destruct (run_keeps cs w1 p _ l w2 Hp1 Hc Hrun) as (Hs & [i' g' [x' sol'|]] & Y1 & Y2 & Y3 & Y4); cbn in Y2, Y3, Y4; [|contradiction].
    subst x' i' g'. rewrite Hh in Hs. eapply uni_search; eauto.
    - eapply estimates_same; eauto.
    - rewrite (leaves_same _ _ Hs d id h He). auto.
  Qed.

  Lemma shared_duo (w : world S A C) p i g f r fa ra ok sol (fp rp : propagator S A C) fid rid a w1 cs l w2 d hf hr :
    nth_error (w_planners w) p = Some (Planner i g (Duo f r fa ra ok sol)) ->
    stp w (InitBidirectional p (Some fp) (Some rp) (Some fid) (Some rid)) = Ok (a, w1) -> leaves_alone p cs -> runs w1 cs = Ok (l, w2) ->
    est d (w_heap w) fid hf -> est d (w_heap w) rid hr -> NoDup (leaves d (w_heap w) fid ++ leaves d (w_heap w) rid) -> d <= depth ->
    a = Initialized true /\
    shown add zero p (stp w2 (SearchPath p)) =
    both_alone (A:=A) eqs ltb add zero graph fuel (hf (goal_after p cs g)) (hr (init_after p cs i)) fp rp (init_after p cs i) (goal_after p cs g).
  Proof.
    intros Hp Hi Hc Hrun Hf Hr Hn Hd. destruct (init_duo _ _ _ _ _ _ _ _ _ _ _ _ _ _ _ _ Hp Hi) as (-> & Hh & Hp1). split; [auto|].
    rewrite (estimates_not_average d _ fid hf fp Hf), (estimates_not_average d _ rid hr rp Hr) in Hp1.
    destruct (run_keeps cs w1 p _ l w2 Hp1 Hc Hrun) as (Hs & [i' g' [|f' r' fa' ra' ok' sol']] & Y1 & Y2 & Y3 & Y4);
      cbn in Y2, Y3, Y4; [contradiction|].
    destruct Y2 as (<- & <- & <- & <- & <-). subst i' g'. rewrite Hh in Hs. eapply duo_search; eauto.
    - eapply estimates_same; eauto.
    - eapply estimates_same; eauto.
    - rewrite (leaves_same _ _ Hs d fid hf Hf), (leaves_same _ _ Hs d rid hr Hr). auto.
  Qed.

  (** ** Averages *)
  Lemma value_frame hp hp' : same hp hp' -> forall n d id h,
    est d hp id h -> (forall i, In i (leaves d hp id) -> nth_error hp' i = nth_error hp i) -> val n hp' id = val n hp id.
  Proof.
    intros Hs. induction n as [|n IH]; intros d id h He Hl; [reflexivity|]. destruct d as [|d]; [contradiction|].
    rewrite !value_S. cbn [estimates leaves] in *.
    destruct (nth_error hp id) as [o|] eqn:E; [|contradiction]. destruct (Hs _ _ E) as (o' & E' & Ho). rewrite E'.
    destruct o, o'; cbn in Ho; try contradiction; auto.
    - specialize (Hl id (or_introl eq_refl)). rewrite E, E' in Hl. injection Hl as -> ->. reflexivity.
    - subst parts0. destruct He as (hs & H & _). clear E E'.
      assert (K : gather (val n hp') parts = gather (val n hp) parts); [|rewrite K; reflexivity].
      induction H as [|x y l m Hx _ IHl]; [reflexivity|]. cbn [flat_map] in Hl. rewrite !gather_cons.
      rewrite (IH d x y Hx) by (intros; apply Hl, in_or_app; auto).
      rewrite IHl by (intros; apply Hl, in_or_app; auto). reflexivity.
    - destruct Ho as [-> ->]. destruct He as (e & H & _). rewrite (IH d _ e H Hl). reflexivity.
  Qed.

  Lemma value_enough d : forall hp id h n m, est d hp id h -> d <= n -> d <= m -> val n hp id = val m hp id.
  Proof.
    induction d as [|d IH]; intros hp id h n m He Hn Hm; [contradiction|].
    destruct n as [|n]; [lia|]. destruct m as [|m]; [lia|]. rewrite !value_S. cbn [estimates] in He.
    destruct (nth_error hp id) as [[func x|parts|inner func|x y k]|] eqn:E; try contradiction; auto.
    - destruct He as (hs & H & _). clear E.
      assert (K : gather (val n hp) parts = gather (val m hp) parts); [|rewrite K; reflexivity].
      induction H as [|x y l j Hx _ IHl]; [reflexivity|]. rewrite !gather_cons, IHl.
      rewrite (IH hp x y n m Hx) by lia. reflexivity.
    - destruct He as (e & H & _). rewrite (IH hp inner e n m H) by lia. reflexivity.
  Qed.

  (** No function is an average. *)
  Lemma leaves_fcn d : forall hp id i, In i (leaves d hp id) -> exists func g, nth_error hp i = Some (HFcn func g).
  Proof.
    induction d as [|d IH]; intros hp id i; cbn [leaves]; [contradiction|].
    destruct (nth_error hp id) as [[func x|parts|inner func|x y k]|] eqn:E; try contradiction.
    - intros [<-|[]]. eauto.
    - intros H. apply in_flat_map in H as (x & _ & H). eauto.
    - eauto.
  Qed.

  Lemma put_average_value hp fid a b k k' d id h n :
    nth_error hp fid = Some (HAverage a b k) -> est d hp id h -> val n (put hp fid (HAverage a b k')) id = val n hp id.
  Proof.
    intros Hf He. eapply value_frame; [|eassumption|].
    - eapply same_put; [eassumption|]. cbn. auto.
    - intros i Hi. apply leaves_fcn in Hi as (func & g & Hi). rewrite (nth_put _ _ _ _ _ Hf).
      destruct (Nat.eqb i fid) eqn:E; [|auto]. apply Nat.eqb_eq in E. congruence.
  Qed.

  Lemma put_average_est hp fid a b k k' d id h :
    nth_error hp fid = Some (HAverage a b k) -> est d hp id h -> est d (put hp fid (HAverage a b k')) id h.
  Proof. intros Hf. apply estimates_same. eapply same_put; [eassumption|]. cbn. auto. Qed.

  Lemma average_search (w : world S A C) p i g (fp rp : propagator S A C) fid rid sol a b k k' d ha hb va vb :
    nth_error (w_planners w) p =
      Some (Planner i g (Duo (Setup (Some (fp, fid)) true) (Setup (Some (rp, rid)) true) (Some fid) (Some rid) true sol)) ->
    nth_error (w_heap w) fid = Some (HAverage a b k) -> nth_error (w_heap w) rid = Some (HAverage b a k') -> fid <> rid ->
    est d (w_heap w) a ha -> est d (w_heap w) b hb -> d < depth ->
    val depth (w_heap w) a = Ok va -> val depth (w_heap w) b = Ok vb ->
    shown add zero p (stp w (SearchPath p)) =
    both_alone (A:=A) eqs ltb add zero graph fuel (fun s => avg (half (vb g)) (va s) (vb s)) (fun s => avg (half (va i)) (vb s) (va s))
      fp rp i g.
  Proof.
    intros Hp Hf Hr Hne Ha Hb Hd Va Vb. cbn [step]. rewrite Hp. cbn [su_ok su_held update_averages].
    unfold update_average at 1. rewrite Hf, Vb. cbn [bind].
    set (hp1 := put (w_heap w) fid (HAverage a b (half (vb g)))).
    assert (Hr1 : nth_error hp1 rid = Some (HAverage b a k')).
    { unfold hp1. rewrite (nth_put _ _ _ _ _ Hf). destruct (Nat.eqb rid fid) eqn:E; [apply Nat.eqb_eq in E; congruence|auto]. }
    assert (Hf1 : nth_error hp1 fid = Some (HAverage a b (half (vb g)))).
    { unfold hp1. rewrite (nth_put _ _ _ _ _ Hf), Nat.eqb_refl. auto. }
    assert (Ha1 : est d hp1 a ha) by (eapply put_average_est; eauto).
    assert (Hb1 : est d hp1 b hb) by (eapply put_average_est; eauto).
    assert (Va1 : forall n, val n hp1 a = val n (w_heap w) a) by (intros; eapply put_average_value; eauto).
    assert (Vb1 : forall n, val n hp1 b = val n (w_heap w) b) by (intros; eapply put_average_value; eauto).
    unfold update_average at 1. rewrite Hr1, Va1, Va. cbn [bind].
    set (hp2 := put hp1 rid (HAverage b a (half (va i)))).
    assert (Hr2 : nth_error hp2 rid = Some (HAverage b a (half (va i)))).
    { unfold hp2. rewrite (nth_put _ _ _ _ _ Hr1), Nat.eqb_refl. auto. }
    assert (Hf2 : nth_error hp2 fid = Some (HAverage a b (half (vb g)))).
    { unfold hp2. rewrite (nth_put _ _ _ _ _ Hr1). destruct (Nat.eqb fid rid) eqn:E; [apply Nat.eqb_eq in E; congruence|auto]. }
    assert (Va2 : forall n, val n hp2 a = val n (w_heap w) a).
    { intros. rewrite <- Va1. eapply put_average_value; eauto. }
    assert (Vb2 : forall n, val n hp2 b = val n (w_heap w) b).
    { intros. rewrite <- Vb1. eapply put_average_value; eauto. }
    clearbody hp1 hp2. destruct depth as [|n] eqn:Dn; [lia|].
    rewrite (set_goal_S n hp2 fid g), Hf2. cbn [bind]. rewrite (set_goal_S n hp2 rid i), Hr2. cbn [bind].
    assert (Va3 : val n (w_heap w) a = Ok va) by (rewrite <- Va; eapply value_enough; eauto; lia).
    assert (Vb3 : val n (w_heap w) b = Ok vb) by (rewrite <- Vb; eapply value_enough; eauto; lia).
    rewrite (value_S n hp2 fid), Hf2, Va2, Vb2, Va3, Vb3. cbn [bind].
    rewrite (value_S n hp2 rid), Hr2, Va2, Vb2, Va3, Vb3. cbn [bind]. unfold both_alone.
    match goal with |- context [bi_search ?a ?b ?c ?d ?e ?f ?g ?h ?i ?j ?k ?l ?m ?n] =>
      destruct (bi_search a b c d e f g h i j k l m n) as [[found b']| | |]; cbn [bind rmap shown]; try reflexivity end.
    unfold shown. cbn [rmap fst snd]. unfold results_of.
    rewrite (nth_put_planner (World hp2 (w_planners w)) _ _ _ _ Hp), Nat.eqb_refl. reflexivity.
  Qed.

  Lemma shared_average (w : world S A C) p i g f r fa ra ok sol (fp rp : propagator S A C) fid rid an w1 cs l w2 a b k k' d ha hb va vb :
    nth_error (w_planners w) p = Some (Planner i g (Duo f r fa ra ok sol)) ->
    stp w (InitBidirectional p (Some fp) (Some rp) (Some fid) (Some rid)) = Ok (an, w1) -> leaves_alone p cs -> runs w1 cs = Ok (l, w2) ->
    nth_error (w_heap w) fid = Some (HAverage a b k) -> nth_error (w_heap w) rid = Some (HAverage b a k') -> fid <> rid ->
    est d (w_heap w) a ha -> est d (w_heap w) b hb -> d < depth ->
    val depth (w_heap w2) a = Ok va -> val depth (w_heap w2) b = Ok vb ->
    shown add zero p (stp w2 (SearchPath p)) =
    both_alone (A:=A) eqs ltb add zero graph fuel
      (fun s => avg (half (vb (goal_after p cs g))) (va s) (vb s)) (fun s => avg (half (va (init_after p cs i))) (vb s) (va s))
      fp rp (init_after p cs i) (goal_after p cs g).
  Proof.
    intros Hp Hi Hc Hrun Hf Hr Hne Ha Hb Hd Va Vb. destruct (init_duo _ _ _ _ _ _ _ _ _ _ _ _ _ _ _ _ Hp Hi) as (-> & Hh & Hp1).
    unfold as_average in Hp1. rewrite Hf, Hr in Hp1.
    destruct (run_keeps cs w1 p _ l w2 Hp1 Hc Hrun) as (Hs & [i' g' [|f' r' fa' ra' ok' sol']] & Y1 & Y2 & Y3 & Y4);
      cbn in Y2, Y3, Y4; [contradiction|].
    destruct Y2 as (<- & <- & <- & <- & <-). subst i' g'. rewrite Hh in Hs.
    destruct (Hs _ _ Hf) as (of & Hf' & Kf). destruct of as [| | |x y kf]; cbn in Kf; try contradiction. destruct Kf as [<- <-].
    destruct (Hs _ _ Hr) as (or & Hr' & Kr). destruct or as [| | |x y kr]; cbn in Kr; try contradiction. destruct Kr as [<- <-].
    eapply average_search; eauto; eapply estimates_same; eauto.
  Qed.

  (** ** The raw pointers to the averages *)
  Definition is_average (o : hobj S C) : Prop := match o with HAverage _ _ _ => True | _ => False end.
  Definition points (hp : heap S C) (x : setup S A C) (pt : option nat) : Prop :=
    exists prop id, su_held x = Some (prop, id) /\
      forall a, pt = Some a -> a = id /\ exists o, nth_error hp id = Some o /\ is_average o.
  Definition pointers (w : world S A C) : Prop :=
    forall p i g f r fa ra sol, nth_error (w_planners w) p = Some (Planner i g (Duo f r fa ra true sol)) ->
      points (w_heap w) f fa /\ points (w_heap w) r ra.

  Lemma points_grow hp hp' x pt :
    (forall i o, nth_error hp i = Some o -> is_average o -> exists o', nth_error hp' i = Some o' /\ is_average o') ->
    points hp x pt -> points hp' x pt.
  Proof.
    intros H (prop & id & E & K). exists prop, id. split; [auto|]. intros a Ha. destruct (K a Ha) as (-> & o & Ho & Hav).
    split; [auto|]. eauto.
  Qed.
  Lemma points_same hp hp' x pt : same hp hp' -> points hp x pt -> points hp' x pt.
  Proof.
    intros Hs. apply points_grow. intros i o Ho Hav. destruct (Hs i o Ho) as (o' & Ho' & K). exists o'. split; [auto|].
    destruct o; cbn in Hav; try contradiction. destruct o'; cbn in K; try contradiction. exact I.
  Qed.
  Lemma points_as_average hp x : su_ok x = true -> (exists q, su_held x = Some q) -> points hp x (as_average hp (su_held x)).
  Proof.
    intros _ [[prop id] E]. exists prop, id. split; [auto|]. rewrite E. unfold as_average.
    destruct (nth_error hp id) as [[]|]; try discriminate. intros a [= <-]. split; [auto|]. eexists. split; [reflexivity|exact I].
  Qed.
  Lemma initialize_held (x : setup S A C) p h : su_ok (initialize x p h) = true -> exists q, su_held (initialize x p h) = Some q.
  Proof. destruct p, h; cbn; try discriminate. eauto. Qed.

  Lemma pointers_planner (w : world S A C) hp q y z :
    pointers w -> same (w_heap w) hp -> nth_error (w_planners w) q = Some y ->
    (forall i g f r fa ra sol, z = Planner i g (Duo f r fa ra true sol) -> points hp f fa /\ points hp r ra) ->
    pointers (put_planner (World hp (w_planners w)) q z).
  Proof.
    intros Hw Hs Hq Hz p i g f r fa ra sol. rewrite (nth_put_planner (World hp (w_planners w)) _ _ _ _ Hq).
    cbn [put_planner w_heap w_planners]. destruct (Nat.eqb p q).
    - intros [= ->]. eauto.
    - intros H. destruct (Hw _ _ _ _ _ _ _ _ H). split; eapply points_same; eauto.
  Qed.

  Lemma put_planner_world (w : world S A C) p x : put_planner w p x = put_planner (World (w_heap w) (w_planners w)) p x.
  Proof. reflexivity. Qed.

  Lemma pointers_step w c a w' : pointers w -> stp w c = Ok (a, w') -> pointers w'.
  Proof.
    intros Hw.
    assert (Happ : forall y l, (forall i g f r fa ra sol, y <> Planner i g (Duo f r fa ra true sol)) ->
                    pointers (World (w_heap w ++ l) (w_planners w ++ [y]))).
    { intros y l Hy p i g f r fa ra sol. cbn [w_planners w_heap]. intros H.
      destruct (Nat.lt_ge_cases p (length (w_planners w))) as [L|L].
      - rewrite nth_error_app1 in H by auto. destruct (Hw _ _ _ _ _ _ _ _ H). split; eapply points_same; eauto using same_app.
      - rewrite nth_error_app2 in H by auto. destruct (p - length (w_planners w)) as [|[|]]; cbn in H; try discriminate.
        injection H as H. exfalso. eapply Hy; eauto. }
    destruct c as [o|id part|d|d|q s|q s|q pr h|q fp rp fh rh|q]; cbn [step].
    - intros [= <- <-] p i g f r fa ra sol H. cbn in *. destruct (Hw _ _ _ _ _ _ _ _ H). split; eapply points_same; eauto using same_app.
    - destruct (nth_error (w_heap w) id) as [[]|] eqn:E; try discriminate. intros [= <- <-] p i g f r fa ra sol H. cbn in *.
      assert (G : forall j o, nth_error (w_heap w) j = Some o -> is_average o ->
                    exists o', nth_error (put (w_heap w) id (HCombined (parts ++ [part]))) j = Some o' /\ is_average o').
      { intros j o Hj Ho. exists o. split; [|auto]. rewrite (nth_put _ _ _ _ _ E). destruct (Nat.eqb j id) eqn:X; [|auto].
        apply Nat.eqb_eq in X. subst. assert (o = HCombined parts) by congruence. subst. contradiction. }
      destruct (Hw _ _ _ _ _ _ _ _ H). split; eapply points_grow; eauto.
    - intros [= <- <-]. rewrite <- (app_nil_r (w_heap w)). apply Happ. discriminate.
    - intros [= <- <-]. rewrite <- (app_nil_r (w_heap w)). apply Happ. discriminate.
    - destruct (nth_error (w_planners w) q) as [[i0 g0 so]|] eqn:E; [|discriminate]. intros [= <- <-]. rewrite put_planner_world.
      eapply pointers_planner; eauto using same_refl. cbn. intros ? ? ? ? ? ? ? [= <- <- ->]. eauto.
    - destruct (nth_error (w_planners w) q) as [[i0 g0 so]|] eqn:E; [|discriminate]. intros [= <- <-]. rewrite put_planner_world.
      eapply pointers_planner; eauto using same_refl. cbn. intros ? ? ? ? ? ? ? [= <- <- ->]. eauto.
    - destruct (nth_error (w_planners w) q) as [[i0 g0 [su so|]]|] eqn:E; try discriminate. intros [= <- <-]. rewrite put_planner_world.
      eapply pointers_planner; eauto using same_refl. discriminate.
    - destruct (nth_error (w_planners w) q) as [[i0 g0 [|f r fa ra ok so]]|] eqn:E; try discriminate.
      destruct (initialize_both (w_heap w) f r fa ra fp rp fh rh) as [[[[f' r'] fa'] ra'] ok'] eqn:I. intros [= <- <-]. rewrite put_planner_world.
      eapply pointers_planner; eauto using same_refl. intros i g f1 r1 fa1 ra1 sol [= <- <- <- <- <- <- -> <-].
      unfold initialize_both in I.
      destruct (su_ok (initialize f fp fh)) eqn:E1; cbn [negb] in I; [|discriminate].
      destruct (su_ok (initialize r rp rh)) eqn:E2; cbn [negb] in I; [|discriminate]. injection I as <- <- <- <-.
      split; apply points_as_average; auto using initialize_held.
    - destruct (nth_error (w_planners w) q) as [[i g [su sol|f r fa ra ok sol]]|] eqn:Eq; try discriminate.
      + destruct (su_ok su); [|intros [= <- <-]; exact Hw].
        destruct (su_held su) as [[pr id]|]; [|discriminate].
        destruct (set_goal depth (w_heap w) id g) as [hp| | |] eqn:Es; cbn [bind]; try discriminate.
        destruct (val depth hp id) as [h| | |]; cbn [bind]; try discriminate.
        match goal with |- bind ?r _ = _ -> _ => destruct r as [[sol' st]| | |]; cbn [bind]; try discriminate end.
        intros [= <- <-]. eapply pointers_planner; eauto using set_goal_same. discriminate.
      + destruct ok; [|intros [= <- <-]; exact Hw].
        destruct (update_averages _ _ _ _ _ _ _ _ _ _) as [hp0| | |] eqn:Eu; cbn [bind]; try discriminate.
        destruct (su_held f) as [[fp fid]|]; [|discriminate]. destruct (su_held r) as [[rp rid]|]; [|discriminate].
        destruct (set_goal depth hp0 fid g) as [hp1| | |] eqn:E1; cbn [bind]; try discriminate.
        destruct (set_goal depth hp1 rid i) as [hp2| | |] eqn:E2; cbn [bind]; try discriminate.
        destruct (val depth hp2 fid) as [hf| | |]; cbn [bind]; try discriminate.
        destruct (val depth hp2 rid) as [hr| | |]; cbn [bind]; try discriminate.
        match goal with |- bind ?r _ = _ -> _ => destruct r as [[found b]| | |]; cbn [bind]; try discriminate end.
        intros [= <- <-].
        assert (Hs : same (w_heap w) hp2).
        { eapply same_trans; [eapply update_averages_same; eauto|]. eapply same_trans; eapply set_goal_same; eauto. }
        eapply pointers_planner; eauto. intros ? ? ? ? ? ? ? [= <- <- <- <- <- <- <-].
        destruct (Hw _ _ _ _ _ _ _ _ Eq). split; eapply points_same; eauto.
  Qed.

  Lemma pointers_run cs : forall w l w', pointers w -> runs w cs = Ok (l, w') -> pointers w'.
  Proof.
    induction cs as [|c cs IH]; intros w l w' Hw; cbn [run].
    - intros [= <- <-]. auto.
    - destruct (stp w c) as [[a w1]| | |] eqn:E; cbn [bind]; try discriminate.
      destruct (runs w1 cs) as [[l2 w2]| | |] eqn:E2; cbn [bind]; try discriminate. intros [= <- <-].
      eapply IH; [|eassumption]. eapply pointers_step; eauto.
  Qed.

  Lemma pointers_new : pointers world_new.
  Proof. intros [|p]; discriminate. Qed.

End Proofs.
