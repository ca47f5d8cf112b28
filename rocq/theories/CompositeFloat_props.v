(** Property C134, composite paths in double precision. *)
From Coq Require Import Reals ZArith Lra.
From Flocq Require Import Core BinarySingleNaN.
From Verif Require Import Base CoordsFloat_model StraightFloat_model Bicycle_model Composite_model Composite_spec CompositeFloat_model CompositeFloat_spec CompositeFloat_proofs CompositeCusps_proofs.
Local Open Scope R_scope.

(** [GetLength] is the sum of the lengths up to rounding, [GetFinalState] that of the last part. *)
Theorem C134_length :
  forall State Part len final (dflt : State) parts, measured State Part len final dflt parts ->
  let L := B2R (dk_length _ _ (d_compose State Part len final dflt parts)) in
  Rabs (L - real_total Part len parts) <= rounding (length parts) L /\
  forall ps p, parts = ps ++ [p] -> dk_final _ _ (d_compose State Part len final dflt parts) = final p.
Proof.
  intros State Part len final dflt parts M L. destruct (composed State Part len final dflt parts) as [_ E2]. split.
  - destruct M as [Hl F]. rewrite E2 in F. pose proof (sum_near Part len parts d_zero Hl F ltac:(apply Rle_refl)) as S. destruct (sum_finite Part len d_zero parts Hl F) as [_ P]. change (B2R d_zero) with 0 in *. rewrite Rplus_0_l in S.
    subst L. rewrite E2. set (L := B2R (sum_from Part len d_zero parts)) in *. eapply Rle_trans; [exact S|]. rewrite <- rounding_units. pose proof (bpow_gt_0 radix2 (-53)). pose proof (bpow_gt_0 radix2 (-1075)).
    unfold StraightFloat_proofs.u53, StraightFloat_proofs.eta53. assert (0 <= bpow radix2 (-53) * L) by (apply Rmult_le_pos; lra). lra.
  - intros ps p ->. apply final_composed.
Qed.
Print Assumptions C134_length.

(** [Interpolate] is defined at every ratio: it asks one of its parts for a ratio between zero and one (exactly), at the right place up to rounding. *)
Theorem C134_interpolates :
  forall State Part len final at_ (dflt : State) parts r, measured State Part len final dflt parts -> is_ratio r -> parts <> [] ->
  let L := B2R (dk_length _ _ (d_compose State Part len final dflt parts)) in
  exists p s, near_arrives Part len (rounding (length parts) L) parts (B2R r * L) p s /\
    dk_at State Part len at_ (d_compose State Part len final dflt parts) r = at_ p s.
Proof. intros State Part len final at_ dflt parts r. exact (interpolates State Part len final at_ dflt parts r). Qed.
Print Assumptions C134_interpolates.

(** The ends are exact: the end of the last part, and the beginning of the first part that has a length. *)
Theorem C134_end :
  forall State Part len final at_ (dflt : State) parts p r, measured State Part len final dflt (parts ++ [p]) -> is_finite r = true -> B2R r = 1 ->
  dk_at State Part len at_ (d_compose State Part len final dflt (parts ++ [p])) r = at_ p d_one.
Proof.
  intros State Part len final at_ dflt parts p r M Fr R1. apply (at_end State Part len final at_ dflt (parts ++ [p]) r M) with (before := parts); auto; [split; [exact Fr|lra]|].
  intros E. destruct parts; discriminate.
Qed.
Print Assumptions C134_end.
Theorem C134_start :
  forall State Part len final at_ (dflt : State) parts r, measured State Part len final dflt parts -> is_finite r = true -> B2R r = 0 -> parts <> [] ->
  0 < B2R (dk_length _ _ (d_compose State Part len final dflt parts)) ->
  exists before p after s, parts = before ++ p :: after /\ (forall q, In q before -> B2R (len q) = 0) /\ 0 < B2R (len p) /\ is_finite s = true /\ B2R s = 0 /\
    dk_at State Part len at_ (d_compose State Part len final dflt parts) r = at_ p s.
Proof. intros State Part len final at_ dflt parts r M Fr R0 Ne PL. apply at_start; auto. split; [exact Fr|lra]. Qed.
Print Assumptions C134_start.

(** [GetDirection] is defined before the end of a path that is not tiny, and is that of the part at this place. *)
Theorem C134_direction_partial :
  forall State Part len final dir (dflt : State) parts r, measured State Part len final dflt parts -> is_ratio r -> B2R r < 1 -> parts <> [] ->
  let L := B2R (dk_length _ _ (d_compose State Part len final dflt parts)) in bpow radix2 (-1000) <= L ->
  exists p s, near_arrives Part len (rounding (length parts) L) parts (B2R r * L) p s /\
    dk_direction State Part len dir (d_compose State Part len final dflt parts) r = Ok (dir p s).
Proof. intros State Part len final dir dflt parts r M Hr R1 Ne L TL. exact (directed State Part len final dir dflt parts r M Hr Ne R1 TL). Qed.
Print Assumptions C134_direction_partial.

(** Refuted: at the end it is not. *)
Theorem C134_direction_refuted :
  forall State Part len final dir (dflt : State) parts r, measured State Part len final dflt parts -> is_finite r = true -> B2R r = 1 -> parts <> [] ->
  dk_direction State Part len dir (d_compose State Part len final dflt parts) r = UB.
Proof. intros State Part len final dir dflt parts r M Fr R1 Ne. apply directed_end; auto. split; [exact Fr|lra]. Qed.
Print Assumptions C134_direction_refuted.

(** [Truncate] is defined: it drops the parts after the place and truncates the part there at a ratio, or does nothing if the length, rounded, is that of
    the whole path. *)
Theorem C134_truncates :
  forall State Part len final trunc (dflt : State) parts r, measured State Part len final dflt parts -> is_ratio r -> parts <> [] ->
  let c := d_compose State Part len final dflt parts in let L := B2R (dk_length _ _ c) in
  exists c', dk_truncate State Part len final trunc c r = Ok c' /\
  (c' = c /\ B2R (d_mul r (dk_length _ _ c)) = L \/
   exists before p after s, parts = before ++ p :: after /\ is_finite s = true /\ 0 <= B2R s <= 1 /\
     Rabs (real_total Part len before + B2R s * B2R (len p) - B2R r * L) <= rounding (length parts) L /\
     map (ds_path Part) (dk_paths _ _ c') = before ++ [trunc p s] /\ dk_final _ _ c' = final (trunc p s) /\ dk_init _ _ c' = dk_init _ _ c /\
     dk_length _ _ c' = d_add (dk_length _ _ (d_compose State Part len final dflt before)) (len (trunc p s))).
Proof. intros State Part len final trunc dflt parts r. exact (truncated State Part len final trunc dflt parts r). Qed.
Print Assumptions C134_truncates.

(** The cusps of a path that has a length are those of the parts, as ratios of the part (C44), and ratios. *)
Theorem C134_cusps :
  forall State Part len final dir cusps (dflt : State) parts, measured State Part len final dflt parts ->
  0 < B2R (dk_length _ _ (d_compose State Part len final dflt parts)) ->
  forall x, In x (dk_cusps State Part len dir cusps (d_compose State Part len final dflt parts)) -> (exists p, In p parts /\ In x (cusps p)) \/ is_ratio x.
Proof. intros State Part len final dir cusps dflt parts M. exact (cusps_ratios State Part len final dir cusps dflt parts M). Qed.
Print Assumptions C134_cusps.

(** They are exactly those of the parts and the joints where the direction at the end of a part is not the one at the start of the next. *)
Theorem C134_joints :
  forall State Part len final dir cusps (dflt : State) parts x, let whole := d_compose State Part len final dflt in
  In x (dk_cusps State Part len dir cusps (whole parts)) <->
  (exists p, In p parts /\ In x (cusps p)) \/
  (exists before p q after, parts = before ++ p :: q :: after /\ dir q d_zero <> dir p d_one /\ x = d_div (dk_length _ _ (whole (before ++ [p]))) (dk_length _ _ (whole parts))).
Proof. exact all_cusps. Qed.
Print Assumptions C134_joints.

(** Parts of the lengths 0.1, 0.2 and 0.7: the sum is rounded, the end is exact, and so is the middle. *)
Definition tenths : list double := [d_of 7205759403792794 (-56); d_of 7205759403792794 (-55); d_of 6305039478318694 (-53)].
Definition numbered (p r : double) : res (double * double) := Ok (p, r).
Definition shown_pair (x : res (double * double)) := match x with Ok (a, b) => Some (B2SF a, B2SF b) | _ => None end.
Example C134_tenths :
  let c := d_compose unit double (fun p => p) (fun _ => tt) tt tenths in
  let c2 := d_compose (double * double) double (fun p => p) (fun p => (p, d_one)) (d_zero, d_zero) tenths in
  is_finite (dk_length _ _ c) = true /\ (forall p, In p tenths -> is_finite p = true /\ Bsign p = false) /\
  shown_pair (dk_at _ _ (fun p => p) numbered c2 (d_of 1 0)) = Some (B2SF (d_of 6305039478318694 (-53)), B2SF d_one) /\
  shown_pair (dk_at _ _ (fun p => p) numbered c2 (d_of 1 (-1))) = Some (B2SF (d_of 6305039478318694 (-53)), B2SF (d_div (d_sub (d_of 1 (-1)) (d_add (d_of 7205759403792794 (-56)) (d_of 7205759403792794 (-55)))) (d_of 6305039478318694 (-53)))) /\
  dk_direction _ _ (fun p => p) (fun _ _ => Forward) c (d_of 1 (-1)) = Ok Forward /\ dk_direction _ _ (fun p => p) (fun _ _ => Forward) c (d_of 1 0) = UB.
Proof. cbv zeta. split; [vm_compute; reflexivity|]. split; [intros p [<- |[<- |[<- |[]]]]; vm_compute; split; reflexivity|]. repeat split; vm_compute; reflexivity. Qed.

(** A path without length that changes its direction has a cusp that is no number. *)
Example C134_no_length :
  let c := d_compose unit bool (fun _ => d_zero) (fun _ => tt) tt [true; false] in
  map (fun x => B2SF x) (dk_cusps unit bool (fun _ => d_zero) (fun p _ => if p then Forward else Backward) (fun _ => []) c) = [SpecFloat.S754_nan].
Proof. vm_compute. reflexivity. Qed.

(** A tiny path: its length times 3/4 is rounded to its length, and there is no direction. *)
Example C134_tiny :
  let c := d_compose unit double (fun p => p) (fun _ => tt) tt [d_of 1 (-1074)] in dk_direction _ _ (fun p => p) (fun _ _ => Forward) c (d_of 3 (-2)) = UB.
Proof. vm_compute. reflexivity. Qed.
