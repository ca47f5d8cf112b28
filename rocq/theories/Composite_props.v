(** Composite paths: properties C42, C43 and part of C44. *)
From Coq Require Import Reals Lra Psatz.
From Verif Require Import Base RealBase Pose_model Straight_model Straight_proofs Bicycle_model Bicycle_spec Bicycle_proofs
  Composite_model Composite_spec Composite_proofs.
Local Open Scope R_scope.

(** C42: the length is the sum of the lengths; going the length [d] along the parts leads to the state that the part gives
    there; the last state is the last part's. *)
Theorem C42_interpolates_parts :
  forall State Part len final at_ (dflt : State) parts,
  (forall p, In p parts -> 0 <= len p) ->
  k_length _ _ (compose State Part len final dflt parts) = total Part len parts /\
  (forall ps p, parts = ps ++ [p] -> k_final _ _ (compose State Part len final dflt parts) = final p) /\
  (chained State Part len at_ parts -> forall r p s, 0 <= r <= 1 -> arrives Part len parts (r * total Part len parts) p s ->
     k_at State Part len at_ (compose State Part len final dflt parts) r = at_ p s).
Proof.
  intros State Part len final at_ dflt parts Hp. destruct (make_wf State Part len final dflt parts Hp) as (_ & _ & L). split; auto. split.
  - intros ps p ->. unfold compose. rewrite List.fold_left_app. reflexivity.
  - intros Hc r p s Hr Ha. apply (make_at State Part len final at_ (fun p _ => p) (fun _ _ => NoMotion)); auto. intros ->. destruct Ha as ([|? ?] & ? & E & _); discriminate.
Qed.
Print Assumptions C42_interpolates_parts.

(** C42: without assuming that the parts are joined, the state is still that of some part at that length. *)
Theorem C42_interpolates_some_part :
  forall State Part len final at_ (dflt : State) parts r, parts <> [] -> (forall p, In p parts -> 0 <= len p) -> 0 <= r <= 1 ->
  exists p s, arrives Part len parts (r * total Part len parts) p s /\
    k_at State Part len at_ (compose State Part len final dflt parts) r = at_ p s.
Proof.
  intros State Part len final at_ dflt parts r Hne Hp Hr. destruct (make_wf State Part len final dflt parts Hp) as (W & M & L).
  destruct (at_arrives State Part len at_ (fun p _ => p) (fun _ _ => NoMotion) _ r W) as (p & s & A & E); [intros E; apply Hne; rewrite <- M, E; reflexivity|auto|].
  rewrite M, L in A. eauto.
Qed.
Print Assumptions C42_interpolates_some_part.

(** C42: the ends. *)
Theorem C42_ends :
  forall State Part len final at_ (dflt : State) p parts q,
  (forall x, In x (p :: parts ++ [q]) -> 0 <= len x) -> chained State Part len at_ (p :: parts ++ [q]) ->
  k_at State Part len at_ (compose State Part len final dflt (p :: parts ++ [q])) 0 = at_ p 0 /\
  k_at State Part len at_ (compose State Part len final dflt (p :: parts ++ [q])) 1 = at_ q 1.
Proof.
  intros State Part len final at_ dflt p parts q Hp Hc.
  destruct (C42_interpolates_parts State Part len final at_ dflt _ Hp) as (_ & _ & H). specialize (H Hc). split; apply H; try lra.
  - exists [], (parts ++ [q]). split; [reflexivity|]. split; [lra|]. cbn. ring.
  - exists (p :: parts), []. split; [reflexivity|]. split; [lra|]. change (p :: parts ++ [q]) with ((p :: parts) ++ [q]).
    assert (T : forall l, total Part len (l ++ [q]) = total Part len l + len q) by (induction l; cbn in *; lra). rewrite T. ring.
Qed.
Print Assumptions C42_ends.

(** C42: the direction is the part's, before the end of the path. Missing for the full statement: the end itself. *)
Theorem C42_direction_partial :
  forall State Part len final dir (dflt : State) parts r,
  (forall p, In p parts -> 0 <= len p) -> 0 < total Part len parts -> 0 <= r < 1 ->
  exists p s, arrives Part len parts (r * total Part len parts) p s /\ s < 1 /\ 0 < len p /\
    k_direction State Part len dir (compose State Part len final dflt parts) r = Ok (dir p s).
Proof. intros State Part len final. exact (make_direction State Part len final (fun _ _ => UB) (fun p _ => p)). Qed.
Print Assumptions C42_direction_partial.

(** C42: asking for the direction at the end of the path reads past the end of the list, for every composite path. *)
Theorem C42_direction_at_end_refuted :
  forall State Part len final dir (dflt : State) parts,
  (forall p, In p parts -> 0 <= len p) -> k_direction State Part len dir (compose State Part len final dflt parts) 1 = UB.
Proof. intros State Part len final. exact (make_direction_end State Part len final (fun _ _ => UB) (fun p _ => p)). Qed.
Print Assumptions C42_direction_at_end_refuted.

(** C42: [GetInitialState] is not the first state of the path: appending never sets it. *)
Theorem C42_initial_state_refuted :
  forall State Part len final (dflt : State) parts, k_init _ _ (compose State Part len final dflt parts) = dflt.
Proof.
  intros State Part len final dflt parts. unfold compose. assert (G : forall c, k_init State Part (fold_left (push_back State Part len final) parts c) = k_init _ _ c).
  { induction parts as [|p r IH]; intros c; [reflexivity|]. cbn. now rewrite IH. }
  apply G.
Qed.
Print Assumptions C42_initial_state_refuted.

(** C42: an empty path has no states. *)
Theorem C42_empty :
  forall State Part len final at_ (dflt : State) r, k_at State Part len at_ (compose State Part len final dflt []) r = Throw.
Proof. reflexivity. Qed.
Print Assumptions C42_empty.

(** Composite paths with constant steering, as in the planner. *)
Definition csteer_ok (p : csteer) : Prop := cbuilt p /\ 0 <= c_length p.
Definition csteer_at (p : csteer) (r : R) : res pose := Ok (c_at p r).

Lemma csteer_lawful : lawful pose csteer c_length csteer_at c_truncate csteer_ok.
Proof.
  intros p [B L]. split; auto. split.
  - intros r Hr. split; [cbn; ring|]. intros s Hs. unfold csteer_at. now rewrite c_truncate_at.
  - intros r Hr. split; [now constructor|]. cbn. nra.
Qed.

(** C43: truncating a composite path, any number of times, keeps its beginning. Missing for the full statement: appending
    after truncation. *)
Theorem C43_truncate_partial :
  forall State Part len final at_ trunc good (c : composite State Part) r,
  lawful State Part len at_ trunc good -> kbuilt State Part len final trunc good c -> 0 <= r <= 1 ->
  exists c', k_truncate State Part len final trunc c r = Ok c' /\ k_length _ _ c' = r * k_length _ _ c /\
    forall q, 0 <= q <= 1 -> k_at State Part len at_ c' q = k_at State Part len at_ c (r * q).
Proof.
  intros State Part len final at_ trunc good c r Hg Hb Hr.
  exact (built_truncate State Part len final at_ trunc (fun _ _ => NoMotion) (fun _ => []) good c r Hg Hb Hr).
Qed.
Print Assumptions C43_truncate_partial.

(** C43, for paths with constant steering. *)
Theorem C43_constant_steer_truncate :
  forall (c : composite pose csteer) r, kbuilt pose csteer c_length c_final c_truncate csteer_ok c -> 0 <= r <= 1 ->
  exists c', k_truncate pose csteer c_length c_final c_truncate c r = Ok c' /\ k_length _ _ c' = r * k_length _ _ c /\
    forall q, 0 <= q <= 1 -> k_at pose csteer c_length csteer_at c' q = k_at pose csteer c_length csteer_at c (r * q).
Proof. intros. eapply C43_truncate_partial; eauto using csteer_lawful. Qed.
Print Assumptions C43_constant_steer_truncate.

(** Straight paths. *)
Definition straight_at (p : spath) (r : R) : res pose := Ok (s_at p r).
Definition straight_composite := compose pose spath s_length s_final.
Definition straight_k_at := k_at pose spath s_length straight_at.
Definition leg1 := s_connect (Pose 0 0 0) (Pose 10 0 0).
Definition leg2 := s_connect (Pose 5 0 0) (Pose 5 2 0).

Lemma leg1_length : s_length leg1 = 10.
Proof. cbn. unfold pnorm. cbn. replace (_ + _) with (10 * 10) by ring. apply sqrt_square. lra. Qed.
Lemma leg2_length : s_length leg2 = 2.
Proof. cbn. unfold pnorm. cbn. replace (_ + _) with (2 * 2) by ring. apply sqrt_square. lra. Qed.

(** C43: appending after truncation goes wrong: the last segment keeps its old end, so that the path goes on along the part that
    was cut. A path of length 10 along the x axis is cut to (5, 0), and the leg to (5, 2) appended. Its point at the length 6 should
    be (5, 1), but is (6, 0), which is not even on the path. *)
Theorem C43_append_after_truncate_refuted :
  exists c, k_truncate pose spath s_length s_final s_truncate (straight_composite (Pose 0 0 0) [leg1]) (1 / 2) = Ok c /\
  k_at pose spath s_length straight_at c 1 = straight_at leg2 0 /\
  k_length _ _ (push_back _ _ s_length s_final c leg2) = 7 /\
  straight_at leg2 (1 / 2) = Ok (Pose 5 1 0) /\
  arrives spath s_length [s_truncate leg1 (1 / 2); leg2] 6 leg2 (1 / 2) /\
  straight_k_at (push_back _ _ s_length s_final c leg2) (6 / 7) = Ok (Pose 6 0 0).
Proof.
  pose proof leg1_length as L1. pose proof leg2_length as L2.
  assert (E : k_truncate pose spath s_length s_final s_truncate (straight_composite (Pose 0 0 0) [leg1]) (1 / 2) =
    Ok (Composite pose spath [Segment spath 0 (0 + s_length leg1) (s_truncate leg1 (1 / 2))] (Pose 0 0 0) (s_at leg1 (1 / 2)) (0 + s_length leg1 * (1 / 2)))).
  { unfold straight_composite, compose, k_truncate, find_segment, upper_bound. cbn [fold_left push_back k_new k_paths k_length app seg_final forallb].
    destruct (Rltb_spec (1 / 2 * (0 + s_length leg1)) (0 + s_length leg1)) as [H|H]; [|lra]. cbn [bind nth_error].
    change (seg_path spath (Segment spath 0 (0 + s_length leg1) leg1)) with leg1. destruct (Reqb_spec (s_length leg1) 0); [lra|]. cbn [bind length Nat.eqb vget nth_error firstn app seg_init seg_final seg_path k_init].
    replace ((1 / 2 * (0 + s_length leg1) - 0) / s_length leg1) with (1 / 2) by (rewrite L1; field). reflexivity. }
  eexists. split; [exact E|]. split; [|split; [|split; [|split]]].
  - unfold k_at, find_segment, upper_bound. cbn [k_paths k_length seg_final forallb]. destruct (Rltb_spec (1 * (0 + s_length leg1 * (1 / 2))) (0 + s_length leg1)) as [H|H]; [|lra].
    cbn [bind nth_error seg_path seg_init]. assert (Lt : s_length (s_truncate leg1 (1 / 2)) = 5) by (cbn [s_truncate s_length]; lra). rewrite Lt.
    destruct (Reqb_spec 5 0); [lra|]. cbn [bind length Nat.eqb vget nth_error seg_path]. rewrite L1. unfold straight_at. f_equal. unfold s_at. cbn. f_equal; field.
  - cbn [push_back k_length]. lra.
  - unfold straight_at, s_at, leg2. cbn. f_equal. f_equal; field.
  - exists [s_truncate leg1 (1 / 2)], []. split; [reflexivity|]. split; [lra|]. cbn [total]. cbn [s_truncate s_length]. rewrite L1, L2. lra.
  - unfold straight_k_at, k_at, find_segment, upper_bound. cbn [push_back k_paths k_length app seg_final forallb]. rewrite L1, L2.
    destruct (Rltb_spec (6 / 7 * (0 + 10 * (1 / 2) + 2)) (0 + 10)) as [H|H]; [|lra].
    destruct (Rltb_spec (6 / 7 * (0 + 10 * (1 / 2) + 2)) (0 + 10 * (1 / 2) + 2)) as [H1|H1]; [|lra].
    cbn [bind nth_error seg_path seg_init andb]. assert (Lt : s_length (s_truncate leg1 (1 / 2)) = 5) by (cbn [s_truncate s_length]; lra). rewrite Lt.
    destruct (Reqb_spec 5 0); [lra|]. cbn [bind length Nat.eqb vget nth_error seg_path]. unfold straight_at. f_equal. unfold s_at. cbn. f_equal; field.
Qed.
Print Assumptions C43_append_after_truncate_refuted.

(** C44: exactly which ratios are returned: those where a part ends and the next starts in another direction, relative to the
    whole path, and the ratios of the parts' own cusps, relative to the parts. Missing for the full statement: the latter should be
    relative to the whole path (see [C44_inner_cusp_refuted]). *)
Theorem C44_cusps_partial :
  forall State Part len final dir cusps (dflt : State) parts r,
  (forall p, In p parts -> 0 <= len p) ->
  (In r (k_cusps State Part len dir cusps (compose State Part len final dflt parts)) <->
   (exists p, In p parts /\ In r (cusps p)) \/
   (exists before p q after, parts = before ++ p :: q :: after /\ dir p 1 <> dir q 0 /\ r = total Part len (before ++ [p]) / total Part len parts)).
Proof. intros State Part len final dir cusps. exact (cusps_spec State Part len final dir cusps). Qed.
Print Assumptions C44_cusps_partial.

(** C44: hence exactly the direction changes if the parts have none inside. *)
Theorem C44_cusps_between_parts :
  forall State Part len final dir cusps (dflt : State) parts r,
  (forall p, In p parts -> 0 <= len p) -> (forall p, In p parts -> cusps p = []) ->
  (In r (k_cusps State Part len dir cusps (compose State Part len final dflt parts)) <->
   exists before p q after, parts = before ++ p :: q :: after /\ dir p 1 <> dir q 0 /\ r = total Part len (before ++ [p]) / total Part len parts).
Proof.
  intros State Part len final dir cusps dflt parts r Hp Hc. rewrite C44_cusps_partial by auto. split; [|now right].
  intros [(p & I & H)|H]; auto. rewrite (Hc p I) in H. destruct H.
Qed.
Print Assumptions C44_cusps_between_parts.

(** The hypotheses are met by two joined parts. *)
Definition leg3 := s_connect (Pose 10 0 0) (Pose 10 5 0).
Example C42_hypotheses_met :
  (forall p, In p [leg1; leg3] -> 0 <= s_length p) /\ chained pose spath s_length straight_at [leg1; leg3] /\
  arrives spath s_length [leg1; leg3] 12 leg3 (2 / 5) /\ 0 < total spath s_length [leg1; leg3].
Proof.
  assert (L3 : s_length leg3 = 5). { cbn. unfold pnorm. cbn. replace (_ + _) with (5 * 5) by ring. apply sqrt_square. lra. }
  pose proof leg1_length as L1. split.
  { intros p [<-|[<-|[]]]; lra. }
  split.
  { cbn [chained]. rewrite L1, L3. split; [lra|]. split; [|split; [lra|auto]]. unfold straight_at. now rewrite s_at_1, s_at_0. }
  split; [|cbn [total]; lra]. exists [leg1], []. split; [reflexivity|]. split; [lra|]. cbn [total]. lra.
Qed.

Example C43_hypotheses_met m : csteer_ok (c_new m (Pose 0 0 0) (1 / 10) 3 Backward).
Proof. split; [constructor|cbn; lra]. Qed.

Example C44_direction_change m : c_get_direction (c_new m (Pose 0 0 0) (1 / 10) 3 Backward) 1 <> c_get_direction (c_new m (Pose 1 0 0) 0 2 Forward) 0.
Proof. discriminate. Qed.
