(** C56 and C57: the random tree planners. *)
From Coq Require Import ZArith Reals Lra.
From Verif Require Import Base RealBase Coords_model Straight_model Straight_spec Straight_proofs.
From Verif Require Import Rrt_model Rrt_spec Rrt_proofs RrtStar_proofs RrtAny_proofs.

(** C56: on Success, GetPath is a path of accepted motions from the initial state to a solution state. *)
Theorem C56_success :
  forall V P eqv (final : P -> V) steer valid issol sample nearest maxIteration maxNode init t s n,
  decides eqv ->
  rrt_search eqv final steer valid issol sample nearest maxIteration maxNode init = Ok (true, t, s, n) ->
  exists l g, get_path t s = Ok l /\ path_between (accepted final steer valid) init g l /\ issol g = true.
Proof. intros until 1. eapply rrt_success; eassumption. Qed.
Print Assumptions C56_success.

(** C56 needs no law of the equality of states, of which the doubles have few: the path ends at a solution, or at a state that [Equal] holds for one. *)
Theorem C56_success_any_equality :
  forall V P eqv (final : P -> V) steer valid issol sample nearest maxIteration maxNode init t s n,
  rrt_search eqv final steer valid issol sample nearest maxIteration maxNode init = Ok (true, t, s, n) ->
  exists l g v, get_path t s = Ok l /\ path_between (accepted final steer valid) init g l /\ issol v = true /\ (g = v \/ eqv g v = true).
Proof.
  intros until n. intros H. destruct (any_success eqv final steer valid issol sample nearest maxIteration maxNode init (accepted final steer valid) (fun _ => True))
    with (t := t) (s := s) (n := n) as (l & g & Hl & Hp & _ & (v & _ & Hv & Hg)); auto.
  - intros a it _ Ha. split; [exact I|]. exists (sample it). auto.
  - exists l, g, v. auto.
Qed.
Print Assumptions C56_success_any_equality.

(** C56 in the plane: each step is a straight segment that the validator accepted, no longer than the maximum
    connection distance, and the last state is within distance one of the goal. *)
Theorem C56_success_R2 :
  forall valid sample nearest maxIteration maxNode d init goal t s n, (0 <= d)%R ->
  rrt_search point_eqb r_final (steer_r2 d) valid (near_goal goal) sample nearest maxIteration maxNode init = Ok (true, t, s, n) ->
  exists l g, get_path t s = Ok l /\
    path_between (fun a b => valid (r_connect a b) = true /\ (distance a b <= d)%R) init g l /\ (distance g goal < 1)%R.
Proof.
  intros valid sample nearest mi mn d init goal t s n Hd H.
  destruct (rrt_success _ point_eqb_ok _ _ _ _ _ _ _ _ _ _ _ _ H) as (l & g & Hl & (P1 & P2 & P3) & Hg).
  exists l, g. split; [exact Hl|]. split.
  - split; [exact P1|]. split; [exact P2|]. intros i a b Ha Hb. destruct (P3 i a b Ha Hb) as (q & Hv & Hf).
    destruct (steer_at d a q) as (r & _ & _ & Hs & _). rewrite Hf in Hs. split; [rewrite <- Hs; exact Hv|].
    rewrite <- Hf. apply steer_short, Hd.
  - unfold near_goal in Hg. destruct (Rltb_spec (pnorm (psub g goal)) 1) as [L|L]; [|discriminate].
    rewrite distance_sym. exact L.
Qed.
Print Assumptions C56_success_R2.

(** C56: the search ends, after at most one iteration more than its budget, with at most one node more than its
    budget, and no state twice in the tree. *)
Theorem C56_terminates :
  forall V P eqv (final : P -> V) steer valid issol sample nearest maxIteration maxNode init,
  decides eqv -> answers nearest -> (0 <= maxIteration < 2147483647)%Z -> (0 <= maxNode)%Z ->
  exists b t s n,
    rrt_search eqv final steer valid issol sample nearest maxIteration maxNode init = Ok (b, t, s, n) /\
    (0 <= n <= maxIteration + 1)%Z /\ (Z.of_nat (length t) <= maxNode + 1)%Z /\ NoDup (states t).
Proof. intros. apply rrt_terminates; assumption. Qed.
Print Assumptions C56_terminates.

(** C56: after a Failure GetPath is empty. *)
Theorem C56_failure :
  forall V P eqv (final : P -> V) steer valid issol sample nearest maxIteration maxNode init t s n,
  decides eqv ->
  rrt_search eqv final steer valid issol sample nearest maxIteration maxNode init = Ok (false, t, s, n) ->
  get_path t s = Ok [].
Proof. intros until 1. eapply rrt_failure; eassumption. Qed.
Print Assumptions C56_failure.

(** C56: it ends also if [Equal] is only reflexive on the states that the search meets, as for doubles. No two states of the tree are equal. *)
Theorem C56_terminates_any_equality :
  forall V P eqv (final : P -> V) steer valid issol sample nearest maxIteration maxNode init G,
  comparable eqv final steer valid sample G -> G init -> answers nearest -> (0 <= maxIteration < 2147483647)%Z -> (0 <= maxNode)%Z ->
  exists b t s n,
    rrt_search eqv final steer valid issol sample nearest maxIteration maxNode init = Ok (b, t, s, n) /\
    (0 <= n <= maxIteration + 1)%Z /\ (Z.of_nat (length t) <= maxNode + 1)%Z /\ all_different eqv (states t) /\
    (b = false -> get_path t s = Ok []).
Proof.
  intros V P eqv final steer valid issol sample nearest mi mn init G [R K] G0 A M1 M2.
  destruct (any_terminates eqv final steer valid issol sample nearest mi mn init (fun _ _ => True) G (fun a it Ga Va => conj (K a it Ga Va) I) G0 R A M1 M2)
    as (b & t & s & n & H & H1 & H2 & H3).
  exists b, t, s, n. split; [exact H|]. split; [exact H1|]. split; [exact H2|]. split; [now apply separate_different|].
  intros ->. pose proof (loop_visited _ _ _ _ _ _ _ _ _ _ _ (visited_start _ _) H) as X. cbn beta iota in X. destruct X as (-> & _). reflexivity.
Qed.
Print Assumptions C56_terminates_any_equality.

(** Planning on the integers with straight motions: [steer a q = (a, q)]. *)
Section OnIntegers.
Local Open Scope Z_scope.

(** The nearest point of a list. *)
Fixpoint argmin (l : list Z) (q : Z) (k best : nat) (bd : Z) : nat :=
  match l with
  | [] => best
  | a :: r => if Z.abs (a - q) <? bd then argmin r q (S k) k (Z.abs (a - q)) else argmin r q (S k) best bd
  end.
Definition znearest (it : Z) (l : list Z) (q : Z) : nat := argmin l q 0 0 1000000.
Definition zsteer (a q : Z) : Z * Z := (a, q).
Definition znth (l : list Z) (d : Z) (it : Z) : Z := nth (Z.to_nat it) l d.

(** C56: the budget is exceeded by one iteration. *)
Theorem C56_iterations_refuted :
  exists (nearest : Z -> list Z -> Z -> nat) t s, answers nearest /\
    rrt_search Z.eqb snd zsteer (fun _ => false) (fun _ => false) (fun _ => 5) nearest 0 100 0 = Ok (false, t, s, 1).
Proof.
  exists (fun _ _ _ => 0%nat). eexists _, _. split; [|vm_compute; reflexivity].
  intros it l q Hl. destruct l; [congruence|cbn; lia].
Qed.

(** C56: the counter overflows if the budget is the largest int or more. *)
Theorem C56_counter_refuted :
  forall maxIteration, 2147483647 <= maxIteration ->
  rrt_search Z.eqb snd zsteer (fun _ => false) (fun _ => false) (fun _ => 5) (fun _ _ _ => 0%nat) maxIteration 100 0 = UB.
Proof.
  intros m Hm. unfold rrt_search. apply loop_overflow_reached.
  - exact Hm.
  - intros c. reflexivity.
  - cbn. lia.
  - unfold max_int. lia.
  - unfold max_int. lia.
Qed.

(** The path stored with a node need not start at its parent, if a state is proposed twice: 4 is reached from 0, then
    again from 3. The path returned by GetPath is not concerned. *)
Theorem C56_stored_path_refuted :
  exists t s n nd p, rrt_search Z.eqb snd zsteer (fun _ => true) (Z.eqb 9) (znth [4; 3; 4] 9) (fun it _ _ => if it =? 2 then 2%nat else 0%nat) 100 100 0 =
    Ok (true, t, s, n) /\ nth_error t 1 = Some nd /\ tn_parent nd = Some 0%nat /\ tn_info nd = Some p /\ fst p = 3.
Proof. eexists _, _, _, _, _. split; [vm_compute; reflexivity|]. repeat split. Qed.

(** A search that meets a rejected motion, a repeated state and reaches the goal. *)
Example C56_case : let valid := fun p : Z * Z => negb ((fst p <? 5) && (5 <? snd p)) in
  exists t s n, rrt_search Z.eqb snd zsteer valid (Z.eqb 9) (znth [3; 9; 5; 3] 9) znearest 100 100 0 = Ok (true, t, s, n) /\
    n = 5 /\ get_path t s = Ok [0; 3; 5; 9].
Proof. eexists _, _, _. split; [vm_compute; reflexivity|]. split; reflexivity. Qed.

(** The [n] nearest points, nearest first. *)
Fixpoint insert_by (q : Z) (l : list Z) (k : nat) (sorted : list nat) : list nat :=
  match sorted with
  | [] => [k]
  | j :: r => if Z.abs (nth k l 0 - q) <? Z.abs (nth j l 0 - q) then k :: sorted else j :: insert_by q l k r
  end.
Definition zknn (it : Z) (l : list Z) (q : Z) (n : nat) : list nat :=
  firstn n (fold_left (fun acc k => insert_by q l k acc) (seq 0 (length l)) []).
(** The logarithm for small trees: log 8 is 2.07.., log 3 is 1.09.., log 2 is 0.69... *)
Definition zlog (n : nat) : nat := if Nat.leb 8 n then 2 else if Nat.leb 3 n then 1 else 0.

(** C57: when all candidate parents are blocked, the new state is attached to its nearest node by a connection that the
    validator rejects, and the returned path goes through it. Here the neighbours are exact. The motion from 0 towards
    -3 starts forwards and its initial part ends at 5. It is accepted, but the motion from 6, the nearest node of 5, to 5
    is not. *)
Definition curved (a q : Z) : Z * Z := if q <? 0 then (a, 5) else (a, q).
Definition blocked (p : Z * Z) : bool := negb ((fst p =? 6) && (snd p =? 5)).
Theorem C57_validated_refuted :
  exists t s n,
  star_search Z.eqb snd curved blocked (Z.eqb 9) (znth [6; -3; 5] 9) znearest 100 100
    zsteer (fun p => Z.abs (snd p - fst p)) 0 Z.add Z.ltb zlog zknn 0 = Ok (true, t, s, n) /\
  (exists k nd m, nth_error t k = Some nd /\ tn_parent nd = Some m /\ tn_info nd = (None, None)) /\ blocked (6, 5) = false.
Proof. eexists _, _, _. split; [vm_compute; reflexivity|]. split; [|reflexivity]. exists 2%nat. eexists _, _. repeat split. Qed.
Print Assumptions C57_validated_refuted.

Theorem C57_validated_path_refuted :
  exists t s n,
  star_search Z.eqb snd curved blocked (Z.eqb 5) (znth [6] (-3)) znearest 100 100
    zsteer (fun p => Z.abs (snd p - fst p)) 0 Z.add Z.ltb zlog zknn 0 = Ok (true, t, s, n) /\
  get_path t s = Ok [0; 6; 5] /\ blocked (zsteer 6 5) = false.
Proof. eexists _, _, _. split; [vm_compute; reflexivity|]. split; reflexivity. Qed.
Print Assumptions C57_validated_path_refuted.

(** C57: when a state of the tree is proposed again, its cost is overwritten but its parent is not. Here 50 was reached
    through 60 at cost 70, is proposed again, and 44 would be a better parent. The cost of the solution is then recorded
    as 51 but the returned path has length 71. All motions are accepted and the neighbours are exact. *)
Theorem C57_costs_refuted :
  exists t s n k nd,
  star_search Z.eqb snd zsteer (fun _ => true) (Z.eqb 51) (znth [60; 50; 20; 30; 39; 44; -100; 50] 51) znearest 100 100
    zsteer (fun p => Z.abs (snd p - fst p)) 0 Z.add Z.ltb zlog zknn 0 = Ok (true, t, s, n) /\
  s = Some k /\ nth_error t k = Some nd /\ snd (tn_info nd) = Some 51 /\ get_path t s = Ok [0; 60; 50; 51].
Proof. eexists _, _, _, _, _. split; [vm_compute; reflexivity|]. repeat split. Qed.
Print Assumptions C57_costs_refuted.

(** A search whose costs are right. *)
Example C57_case_integers :
  exists t s n k nd,
  star_search Z.eqb snd zsteer (fun _ => true) (Z.eqb 51) (znth [60; 50; 20; 30; 39; 44; -100] 51) znearest 100 100
    zsteer (fun p => Z.abs (snd p - fst p)) 0 Z.add Z.ltb zlog zknn 0 = Ok (true, t, s, n) /\
  s = Some k /\ nth_error t k = Some nd /\ snd (tn_info nd) = Some 51 /\ get_path t s = Ok [0; 20; 30; 39; 44; 51].
Proof. eexists _, _, _, _, _. split; [vm_compute; reflexivity|]. repeat split. Qed.
End OnIntegers.

(** C57 (partial: exact neighbours and straight connections; the recorded costs are those of a validated route, at
    most the length of the branch, and those of the parent plus the connection if no state is proposed twice). *)
Theorem C57_R2_partial :
  forall valid sample nearest knn maxIteration maxNode d init goal t s n,
  exact_neighbours nearest knn ->
  star_search point_eqb r_final (steer_r2 d) valid (fun v => point_eqb v goal) sample nearest maxIteration maxNode
    r_connect r_length 0%R Rplus Rltb log_size knn init = Ok (true, t, s, n) ->
  (exists l, get_path t s = Ok l /\ path_between (fun a b => valid (r_connect a b) = true) init goal l) /\
  (forall k nd, nth_error t k = Some nd -> exists c b, snd (tn_info nd) = Some c /\
     route r_connect valid r_length init (tn_state nd) c /\ branch r_connect r_length t k b /\ (c <= b)%R) /\
  ((forall it t0 v,
      visited (star_body point_eqb r_final (steer_r2 d) valid (fun v => point_eqb v goal) sample nearest
                 r_connect r_length 0%R Rplus Rltb log_size knn) (create_root (None, Some 0%R) init) it t0 ->
      proposes r_final (steer_r2 d) valid sample nearest it (states t0) v -> ~ In v (states t0)) ->
   local_costs r_connect r_length t).
Proof.
  intros valid sample nearest knn mi mn d init goal t s n Ex H.
  destruct (star_success _ point_eqb_ok _ _ _ _ _ _ _ _ _ _ _ _ _ _ _ _
    (plane_covers valid sample nearest knn d Ex) plane_no_length H) as ((l & g & Hl & Hp & Hg) & Hc & Hn).
  apply point_eqb_ok in Hg. subst g. split; [exists l; split; [exact Hl|exact Hp]|]. split; [exact Hc|exact Hn].
Qed.
Print Assumptions C57_R2_partial.

(** C57: the same for other connections, whenever the accepted motion is among the candidates. *)
Theorem C57_covered_partial :
  forall V P eqv (final : P -> V) steer valid issol sample nearest maxIteration maxNode connect plength log knn init t s n,
  decides eqv -> covers final steer valid sample nearest connect log knn -> no_length connect plength ->
  star_search eqv final steer valid issol sample nearest maxIteration maxNode connect plength 0%R Rplus Rltb log knn init =
    Ok (true, t, s, n) ->
  exists l g, get_path t s = Ok l /\ path_between (fun a b => valid (connect a b) = true) init g l /\ issol g = true.
Proof.
  intros V P eqv final steer valid issol sample nearest mi mn connect plength log knn init t s n D Cov NL H.
  exact (proj1 (star_success _ D _ _ _ _ _ _ _ _ _ _ _ _ _ _ _ _ Cov NL H)).
Qed.
Print Assumptions C57_covered_partial.

(** C57: budgets and failure, as for RRT. *)
Theorem C57_terminates :
  forall V P eqv (final : P -> V) steer valid issol sample nearest maxIteration maxNode connect plength log knn init,
  decides eqv -> answers nearest -> answers_all knn -> (0 <= maxIteration < 2147483647)%Z -> (0 <= maxNode)%Z ->
  exists b t s n,
    star_search eqv final steer valid issol sample nearest maxIteration maxNode connect plength 0%R Rplus Rltb log knn init =
      Ok (b, t, s, n) /\
    (0 <= n <= maxIteration + 1)%Z /\ (Z.of_nat (length t) <= maxNode + 1)%Z /\ NoDup (states t) /\
    (b = false -> get_path t s = Ok []).
Proof.
  intros V P eqv final steer valid issol sample nearest mi mn connect plength log knn init D A AA M1 M2.
  destruct (star_terminates eqv D final steer valid issol sample nearest mi mn connect plength log knn init A AA M1 M2)
    as (b & t & s & n & H & H1 & H2 & H3).
  exists b, t, s, n. split; [exact H|]. split; [exact H1|]. split; [exact H2|]. split; [exact H3|].
  intros ->. eapply star_failure; eassumption.
Qed.
Print Assumptions C57_terminates.

(** C57 for any equality of states that is reflexive on the states that the search meets, and for costs in any arithmetic without infinity: if the
    validator accepts a candidate for each proposed state, then it accepted each step of the returned path. *)
Theorem C57_any_equality_partial :
  forall V P C eqv (final : P -> V) steer valid issol sample nearest maxIteration maxNode connect plength (zero : C) add ltb log knn init G t s n,
  comparable eqv final steer valid sample G -> G init -> answers nearest -> answers_all knn ->
  some_candidate final steer valid sample nearest connect log knn G ->
  star_search eqv final steer valid issol sample nearest maxIteration maxNode connect plength zero add ltb log knn init = Ok (true, t, s, n) ->
  exists l g v, get_path t s = Ok l /\ path_between (fun a b => valid (connect a b) = true) init g l /\ G g /\ issol v = true /\ eqv g v = true.
Proof.
  intros V P C eqv final steer valid issol sample nearest mi mn connect plength zero add ltb log knn init G t s n [R K] G0 A AA Cov H.
  destruct (star_any_success eqv final steer valid issol sample nearest mi mn connect plength zero add ltb log knn init G K G0 R A AA t s n Cov H)
    as (l & g & Hl & Hp & Hg & (v & Gv & Hv & E)).
  exists l, g, v. repeat (split; [assumption|]). destruct E as [->|E]; auto.
Qed.
Print Assumptions C57_any_equality_partial.

(** C57: budgets and failure for these equalities and costs; without the proviso about candidates the path still leads from the initial state to a
    solution. *)
Theorem C57_terminates_any_equality :
  forall V P C eqv (final : P -> V) steer valid issol sample nearest maxIteration maxNode connect plength (zero : C) add ltb log knn init G,
  comparable eqv final steer valid sample G -> G init -> answers nearest -> answers_all knn -> (0 <= maxIteration < 2147483647)%Z -> (0 <= maxNode)%Z ->
  exists b t s n l,
    star_search eqv final steer valid issol sample nearest maxIteration maxNode connect plength zero add ltb log knn init = Ok (b, t, s, n) /\
    (0 <= n <= maxIteration + 1)%Z /\ (Z.of_nat (length t) <= maxNode + 1)%Z /\ all_different eqv (states t) /\ get_path t s = Ok l /\
    if b then nth_error l 0 = Some init /\ exists g v, nth_error l (length l - 1) = Some g /\ issol v = true /\ eqv g v = true else l = [].
Proof.
  intros V P C eqv final steer valid issol sample nearest mi mn connect plength zero add ltb log knn init G [R K] G0 A AA M1 M2.
  destruct (star_any_terminates eqv final steer valid issol sample nearest mi mn connect plength zero add ltb log knn init G K G0 R A AA M1 M2)
    as (b & t & s & n & H & H1 & H2 & H3). destruct b.
  - destruct (star_any_ends eqv final steer valid issol sample nearest mi mn connect plength zero add ltb log knn init G K G0 R A AA t s n H)
      as (l & g & Hl & L0 & L1 & Hg & (v & Gv & Hv & E)).
    exists true, t, s, n, l. repeat (split; [assumption|]). split; [now apply separate_different|]. split; [exact Hl|]. split; [exact L0|].
    exists g, v. repeat (split; [assumption|]). destruct E as [->|E]; auto.
  - exists false, t, s, n, []. repeat (split; [assumption|]). split; [now apply separate_different|]. split; [|reflexivity].
    pose proof (loop_visited _ _ _ _ _ _ _ _ _ _ _ (visited_start _ _) H) as X. cbn beta iota in X. destruct X as (-> & _). reflexivity.
Qed.
Print Assumptions C57_terminates_any_equality.

(** An equality that identifies 2 with -2, as the doubles do with their zeros: the search for 2 ends at -2, which it met before. *)
Definition same_size (a b : Z) : bool := (Z.abs a =? Z.abs b)%Z.
Example C57_case_equality :
  comparable same_size snd zsteer (fun _ => true) (znth [-2] 2)%Z (fun _ => True) /\
  some_candidate snd zsteer (fun _ => true) (znth [-2] 2)%Z (fun _ _ _ => 0%nat) zsteer zlog (fun _ l _ _ => match l with [] => [] | _ => [0%nat] end) (fun _ => True) /\
  exists t s n,
  star_search same_size snd zsteer (fun _ => true) (Z.eqb 2) (znth [-2] 2)%Z (fun _ _ _ => 0%nat) 100 100
    zsteer (fun p => Z.abs (snd p - fst p)) 0%Z Z.add Z.ltb zlog (fun _ l _ _ => match l with [] => [] | _ => [0%nat] end) 0%Z = Ok (true, t, s, n) /\
  get_path t s = Ok [0; -2]%Z.
Proof.
  split; [split; [intros a _; apply Z.eqb_refl|intros a it _ _; exact I]|]. split.
  - intros it l a _ H _. exists 0%nat, a. destruct l; [discriminate|]. split; [left; reflexivity|]. split; [exact H|reflexivity].
  - eexists _, _, _. split; vm_compute; reflexivity.
Qed.

(** The neighbours can be exact. *)
Section Exact.
Local Open Scope R_scope.
Fixpoint rargmin (l : list point) (q : point) : nat :=
  match l with
  | [] => 0
  | a :: r => match nth_error r (rargmin r q) with
              | Some b => if Rltb (distance q b) (distance q a) then S (rargmin r q) else 0%nat
              | None => 0%nat
              end
  end.

Lemma rargmin_ok l q : l <> [] -> exists a, nth_error l (rargmin l q) = Some a /\ forall b, In b l -> distance q a <= distance q b.
Proof.
  induction l as [|a l IH]; [congruence|]. intros _. cbn [rargmin]. destruct l as [|a' l'].
  - exists a. split; [reflexivity|]. intros b [<-|[]]. lra.
  - destruct (IH ltac:(congruence)) as (b & Hb & Hmin). rewrite Hb. destruct (Rltb_spec (distance q b) (distance q a)) as [L|L].
    + exists b. split; [exact Hb|]. intros c [<-|Hc]; [lra|exact (Hmin c Hc)].
    + exists a. split; [reflexivity|]. intros c [<-|Hc]; [lra|]. generalize (Hmin c Hc). lra.
Qed.

Example C57_exact_exists : exact_neighbours (fun _ => rargmin) (fun _ l q n => [rargmin l q]).
Proof.
  split; [intros it l q Hl; exact (rargmin_ok l q Hl)|]. intros it l q n _ _. left. reflexivity.
Qed.

Lemma search_loop_first {V I} (body : Z -> tree V I -> res (tree V I * option nat)) mi mn fuel t t' k :
  body 0%Z t = Ok (t', Some k) -> (0 <= mi)%Z -> (Z.of_nat (length t) <= mn)%Z ->
  search_loop mi mn body (S fuel) 0 t = Ok (true, t', Some k, 1%Z).
Proof.
  intros B M L. rewrite search_loop_S. destruct (Z.ltb_spec max_int 0) as [X|_]; [unfold max_int in X; lia|].
  destruct (Z.ltb_spec mi 0); [lia|]. destruct (Z.ltb_spec mn (Z.of_nat (length t))); [lia|]. rewrite B. reflexivity.
Qed.

(** A search in the plane that reaches the goal by one straight motion. *)
Example C57_case : exists t s n,
  star_search point_eqb r_final (steer_r2 10) (fun _ => true) (fun v => point_eqb v (3, 4)) (fun _ => (3, 4)) (fun _ => rargmin) 100 100
    r_connect r_length 0 Rplus Rltb log_size (fun _ l q n => [rargmin l q]) (0, 0) = Ok (true, t, s, n) /\
  get_path t s = Ok [(0, 0); (3, 4)].
Proof.
  assert (R0 : point_eqb (0, 0) (0, 0) = true) by (apply point_eqb_ok; reflexivity).
  assert (R1 : point_eqb (3, 4) (3, 4) = true) by (apply point_eqb_ok; reflexivity).
  assert (R2 : point_eqb (0, 0) (3, 4) = false).
  { destruct (point_eqb (0, 0) (3, 4)) eqn:E; [|reflexivity]. apply point_eqb_ok in E. injection E. lra. }
  assert (L : r_length (r_connect (0, 0) (3, 4)) = 5).
  { cbn. unfold pnorm, psub. cbn. replace (_ + _) with (5 * 5) by ring. apply sqrt_square. lra. }
  assert (F : r_final (steer_r2 10 (0, 0) (3, 4)) = (3, 4)).
  { unfold steer_r2. rewrite L. destruct (Rltb_spec 0 5) as [_|X]; [|lra].
    replace (clamp (10 / 5) 0 1) with 1.
    - cbn [r_truncate r_final]. rewrite r_at_1. reflexivity.
    - unfold clamp. destruct (Rltb_spec (10 / 5) 0); [lra|]. destruct (Rltb_spec 1 (10 / 5)); lra. }
  assert (B : star_body point_eqb r_final (steer_r2 10) (fun _ => true) (fun v => point_eqb v (3, 4)) (fun _ => (3, 4)) (fun _ => rargmin)
    r_connect r_length 0 Rplus Rltb log_size (fun _ l q n => [rargmin l q]) 0 (create_root (None, Some 0) (0, 0)) =
    Ok ([TNode (0, 0) None (None, Some 0);
         TNode (3, 4) (Some 0%nat) (Some (r_connect (0, 0) (3, 4)), Some (0 + r_length (r_connect (0, 0) (3, 4))))], Some 1%nat)).
  { unfold star_body, get_nearest_node, create_root. cbn [states map tn_state rargmin nth_error vget bind].
    unfold find_state. cbn [find_from tn_state]. rewrite R0. cbn [vget nth_error bind tn_state negb]. rewrite F.
    cbn [get_nodes vget nth_error states map tn_state bind]. unfold find_state. cbn [find_from tn_state]. rewrite R0.
    cbn [bind best_parent vget nth_error tn_state tn_info snd fst opt_add opt_ltb andb].
    unfold extend, find_state. cbn [find_from tn_state]. rewrite R2. cbn [bind app length set_info vget nth_error].
    rewrite R1. reflexivity. }
  eexists _, _, _. split; [apply (search_loop_first _ 100 100 _ _ _ _ B); cbn; lia|]. reflexivity.
Qed.
End Exact.
