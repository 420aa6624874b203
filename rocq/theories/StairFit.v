(** Proofs about the two-objective archive: contributions, and one offer. *)
From Coq Require Import Bool Arith QArith Lqa Lia Permutation.
From Verif Require Import Lib Outcome BoundsModel BoundsProofs StairModel StairSpec StairProofs.
From Coq Require Import List.
Import ListNotations.
Close Scope Q_scope.
Open Scope nat_scope.

Section P.
Context {G : Type}.
Variable mv : Q.
Notation pt := (pt G).
Notation member := (member G).
Notation pts := (map (@mpt G)).
Implicit Types (s A B : list pt) (l : list member).

(** the contribution, as the code computes it *)
Definition contrib s (k : nat) : Q :=
  match k with
  | 0 => mv
  | S p => match nth_error s p, nth_error s k, nth_error s (S k) with
           | Some a, Some e, Some n => ((px a - px e) * (py n - py e))%Q
           | _, _, _ => mv
           end
  end.
Definition right_at l (k : nat) : Prop := forall e, nth_error l k = Some e -> snd e = Some (contrib (pts l) k).
Definition right l : Prop := forall k, right_at l k.

Definition refit l k : list member :=
  match nth_error l k with Some e => set l k (mpt e, Some (contrib (pts l) k)) | None => l end.
Lemma refit_pts l k : pts (refit l k) = pts l.
Proof.
  unfold refit. destruct (nth_error l k) as [e|] eqn:E; auto. apply nth_error_ext. intros i.
  rewrite !nth_error_map'. rewrite nth_error_set. destruct (Nat.eq_dec i k) as [->|N].
  - assert (k < length l) by (eapply nth_error_lt; eauto). destruct (Nat.eqb_spec k k); [|lia].
    destruct (Nat.ltb_spec k (length l)); [|lia]. rewrite E. reflexivity.
  - destruct (Nat.eqb_spec i k); [lia|]. reflexivity.
Qed.
Lemma refit_length l k : length (refit l k) = length l.
Proof. unfold refit. destruct (nth_error l k); auto. apply set_length. Qed.
Lemma refit_at l k : right_at (refit l k) k.
Proof.
  intros e H. rewrite refit_pts. unfold refit in H. destruct (nth_error l k) as [e0|] eqn:E; [|congruence].
  rewrite nth_error_set_eq in H by (eapply nth_error_lt; eauto). injection H as <-. reflexivity.
Qed.
Lemma refit_other l k i : i <> k -> nth_error (refit l k) i = nth_error l i.
Proof. intros N. unfold refit. destruct (nth_error l k); auto. apply nth_error_set_neq; auto. Qed.
Lemma right_refit l k i : right_at l i -> right_at (refit l k) i.
Proof.
  intros R. destruct (Nat.eq_dec i k) as [->|N]; [apply refit_at|].
  intros e H. rewrite refit_other in H by auto. rewrite refit_pts. auto.
Qed.

Lemma compute_refit l k : k < length l -> compute mv l k = Ok (refit l k).
Proof.
  intros L. unfold compute, refit, fitness, contrib.
  destruct (nth_error_in_some l k L) as [e E]. rewrite E.
  destruct k as [|p]; [reflexivity|]. replace (S p =? 0) with false by reflexivity.
  destruct (Nat.eqb_spec (S (S p)) (length l)) as [X|X].
  - cbn [of_opt rbind]. do 4 f_equal. rewrite !nth_error_map'. rewrite (nth_error_ge l (S (S p))) by lia.
    cbn [option_map]. destruct (option_map _ _); auto. destruct (option_map _ _); auto.
  - cbn [of_opt rbind]. replace (S p - 1) with p by lia.
    destruct (nth_error_in_some l p) as [a Ea]; [lia|]. destruct (nth_error_in_some l (S (S p))) as [b Eb]; [lia|].
    rewrite !nth_error_map', Ea, Eb, E. reflexivity.
Qed.
Lemma computeFitness_ok l k : k < length l ->
  exists l', computeFitness mv l k = Ok l' /\ pts l' = pts l /\ length l' = length l /\
  right_at l' k /\ right_at l' (S k) /\ right_at l' (k - 1) /\ (forall i, right_at l i -> right_at l' i).
Proof.
  intros L. unfold computeFitness.
  assert (H1 : exists l1, (if k =? 0 then Ok l else compute mv l (k - 1)) = Ok l1 /\ pts l1 = pts l /\ length l1 = length l /\
     (k <> 0 -> right_at l1 (k - 1)) /\ forall i, right_at l i -> right_at l1 i).
  { destruct (Nat.eqb_spec k 0).
    - exists l. repeat split; auto. lia.
    - rewrite compute_refit by lia. eexists. split; [reflexivity|]. rewrite refit_pts, refit_length.
      repeat split; auto; intros; [apply refit_at|apply right_refit; auto]. }
  destruct H1 as (l1 & -> & P1 & L1 & R1 & K1). cbn [rbind].
  assert (H2 : exists l2, (if S k =? length l1 then Ok l1 else compute mv l1 (S k)) = Ok l2 /\ pts l2 = pts l /\ length l2 = length l /\
     right_at l2 (S k) /\ forall i, right_at l1 i -> right_at l2 i).
  { destruct (Nat.eqb_spec (S k) (length l1)) as [X|X].
    - exists l1. repeat split; auto. intros e E. apply nth_error_lt in E. lia.
    - rewrite compute_refit by lia. eexists. split; [reflexivity|]. rewrite refit_pts, refit_length.
      repeat split; auto; intros; [apply refit_at|apply right_refit; auto]. }
  destruct H2 as (l2 & -> & P2 & L2 & R2 & K2). cbn [rbind].
  rewrite compute_refit by lia. eexists. split; [reflexivity|]. rewrite refit_pts, refit_length.
  repeat split; auto.
  - apply refit_at.
  - apply right_refit; auto.
  - destruct k as [|k]; [apply refit_at|]. apply right_refit, K2, R1. lia.
  - intros i R. apply right_refit; auto.
Qed.

(** contributions away from a change *)
Lemma contrib_left A B B' i : S i < length A -> contrib (A ++ B) i = contrib (A ++ B') i.
Proof.
  intros L. destruct i as [|p]; [reflexivity|]. unfold contrib.
  rewrite !nth_error_app1 by lia. reflexivity.
Qed.
Lemma contrib_right A A' B j : contrib (A ++ B) (length A + S j) = contrib (A' ++ B) (length A' + S j).
Proof.
  rewrite !Nat.add_succ_r. cbn [contrib].
  assert (E : forall A0 i, nth_error (A0 ++ B) (length A0 + i) = nth_error B i).
  { intros A0 i. rewrite nth_error_app2 by lia. f_equal. lia. }
  rewrite !E. rewrite <- !Nat.add_succ_r, !E. reflexivity.
Qed.
Lemma right_left (U R R' : list member) i : S i < length U -> right_at (U ++ R) i -> right_at (U ++ R') i.
Proof.
  intros L H e E. rewrite nth_error_app1 in E by lia. rewrite map_app.
  rewrite (contrib_left _ _ (pts R)) by (rewrite map_length; auto). rewrite <- map_app. apply H.
  rewrite nth_error_app1 by lia. auto.
Qed.
Lemma right_right (R R' W : list member) j : right_at (R ++ W) (length R + S j) -> right_at (R' ++ W) (length R' + S j).
Proof.
  intros H e E. rewrite map_app. replace (length R') with (length (pts R')) by apply map_length.
  rewrite (contrib_right _ (pts R)). rewrite <- map_app, map_length. apply H.
  rewrite nth_error_app2 in * by lia. rewrite <- E. f_equal. lia.
Qed.

(** ** insertion *)
Lemma put_right (U D W : list member) (v : member) : right (U ++ D ++ W) ->
  exists l', computeFitness mv (U ++ v :: W) (length U) = Ok l' /\ pts l' = pts U ++ mpt v :: pts W /\ right l'.
Proof.
  intros R. destruct (computeFitness_ok (U ++ v :: W) (length U)) as (l' & E & P & L & R1 & R2 & R3 & R4); [rewrite app_length; cbn; lia|].
  exists l'. split; auto. split; [rewrite P, map_app; reflexivity|].
  intros i. destruct (Nat.lt_trichotomy i (length U)) as [X|[->|X]]; auto.
  - destruct (Nat.eq_dec (S i) (length U)) as [Y|Y].
    + replace i with (length U - 1) by lia. auto.
    + apply R4. apply (right_left _ (D ++ W)); [lia|]. apply R.
  - destruct (Nat.eq_dec i (S (length U))) as [->|Y]; auto. apply R4.
    change (v :: W) with ([v] ++ W). rewrite app_assoc.
    replace i with (length (U ++ [v]) + S (i - length U - 2)) by (rewrite app_length; cbn; lia).
    apply (right_right (U ++ D)). rewrite <- app_assoc. apply R.
Qed.

(** ** the search of the least *)
Lemma scan_ok l : forall k min itd, (forall e, In e l -> snd e <> None) ->
  exists min' itd', scan l k min itd = Ok (min', itd') /\ (min' <= min)%Q /\
  (forall e f, In e l -> snd e = Some f -> (min' <= f)%Q) /\
  ((min' = min /\ itd' = itd) \/ (min' < min)%Q /\ exists j e, itd' = Some (k + j) /\ nth_error l j = Some e /\ snd e = Some min').
Proof.
  induction l as [|e l IH]; intros k min itd H; cbn [scan].
  - exists min, itd. split; [auto|]. split; [lra|]. split; [intros e f []|auto].
  - destruct (snd e) as [f|] eqn:F; [|exfalso; apply (H e); [left|]; auto].
    destruct (qltb f min) eqn:Q.
    + apply qltb_lt in Q. destruct (IH (S k) f (Some k)) as (m' & d' & E & L & M & C); [intros; apply H; right; auto|].
      exists m', d'. split; [auto|]. split; [lra|]. split.
      * intros e' f' [<-|I] F'; [|eauto]. replace f' with f by congruence. auto.
      * right. destruct C as [[-> ->]|[C1 (j & e' & -> & N & F')]].
        -- split; [auto|]. exists 0, e. split; [f_equal; lia|auto].
        -- split; [lra|]. exists (S j), e'. split; [f_equal; lia|auto].
    + apply qltb_ge in Q. destruct (IH (S k) min itd) as (m' & d' & E & L & M & C); [intros; apply H; right; auto|].
      exists m', d'. split; [auto|]. split; [auto|]. split.
      * intros e' f' [<-|I] F'; [|eauto]. replace f' with f by congruence. lra.
      * destruct C as [C|[C1 (j & e' & -> & N & F')]]; [auto|]. right. split; auto. exists (S j), e'. split; [f_equal; lia|auto].
Qed.
Lemma right_some l : right l -> forall e, In e l -> snd e <> None.
Proof. intros R e I. apply In_nth_error in I as [k E]. rewrite (R k e E). discriminate. Qed.
Lemma scan_right l : right l -> exists min itd, scan l 0 mv None = Ok (min, itd) /\ (min <= mv)%Q /\
  (forall j, (min <= contrib (pts l) j)%Q) /\
  ((min = mv /\ itd = None) \/ (min < mv)%Q /\ exists d, itd = Some d /\ d < length l /\ min = contrib (pts l) d).
Proof.
  intros R. destruct (scan_ok l 0 mv None (right_some l R)) as (m & d & E & L & M & C).
  exists m, d. split; [auto|]. split; [auto|]. split.
  - intros j. destruct (nth_error l j) as [e|] eqn:Ej.
    + apply (M e); [eapply nth_error_In; eauto|]. apply R; auto.
    + destruct j as [|p]; [exact L|]. cbn [contrib]. rewrite !nth_error_map', Ej. cbn [option_map]. destruct (option_map _ _); exact L.
  - destruct C as [C|[C (j & e & -> & N & F)]]; [auto|]. right. split; auto. exists j. split; [auto|]. split; [eapply nth_error_lt; eauto|].
    rewrite (R j e N) in F. congruence.
Qed.

Lemma contrib_end s k : length s <= S k -> contrib s k = mv.
Proof.
  intros L. destruct k as [|p]; [reflexivity|]. cbn [contrib]. rewrite (nth_error_ge s (S (S p))) by lia.
  destruct (nth_error s p); auto. destruct (nth_error s (S p)); auto.
Qed.

Lemma filterbis_small fuel m l min itd : length l <= m -> filterbis fuel m mv l min itd = Ok l.
Proof. intros L. destruct fuel; cbn [filterbis]; destruct (Nat.leb_spec (length l) m); auto; lia. Qed.
Lemma erase_pts l k : pts (erase l k) = without (pts l) k.
Proof. unfold erase, without. rewrite map_app, firstn_map, skipn_map. reflexivity. Qed.
Lemma erase_length l k : k < length l -> length (erase l k) = length l - 1.
Proof. intros. unfold erase. rewrite app_length, firstn_length, skipn_length. lia. Qed.

(** one round of removal, from an archive that holds one member too many *)
Lemma filterbis_one fuel m l : right l -> length l = S m -> 1 <= fuel ->
  (exists d l', filterbis fuel m mv l mv None = Ok l' /\ 0 < d /\ S d < length l /\
     (contrib (pts l) d < mv)%Q /\ (forall j, (contrib (pts l) d <= contrib (pts l) j)%Q) /\
     pts l' = without (pts l) d /\ right l' /\ length l' = m) \/
  (filterbis fuel m mv l mv None = UB /\ forall j, (mv <= contrib (pts l) j)%Q).
Proof.
  intros R L F. destruct fuel as [|fuel]; [lia|]. cbn [filterbis].
  destruct (Nat.leb_spec (length l) m); [lia|].
  destruct (scan_right l R) as (min & itd & -> & Le & All & C). cbn [rbind].
  destruct C as [[-> ->]|[C (d & -> & Ld & ->)]]; [right; auto|]. left. cbn [of_opt rbind].
  destruct d as [|p]; [cbn in C; lra|].
  assert (Lp : S (S p) < length l).
  { destruct (Nat.le_gt_cases (length l) (S (S p))); auto. rewrite contrib_end in C by (rewrite map_length; lia). lra. }
  pose proof (erase_length l (S p) ltac:(lia)) as Le1.
  rewrite compute_refit by lia. cbn [rbind]. rewrite refit_length.
  destruct (Nat.ltb_spec (S p) (length (erase l (S p)))); [|lia].
  rewrite compute_refit by (rewrite refit_length; lia). cbn [rbind].
  rewrite filterbis_small by (rewrite !refit_length; lia).
  exists (S p). eexists. split; [reflexivity|]. split; [lia|]. split; [auto|]. split; [auto|]. split; [auto|].
  rewrite !refit_pts, !refit_length, erase_pts. split; [auto|]. split; [|lia].
  intros i. destruct (Nat.lt_trichotomy i (S p)) as [X|[->|X]].
  - destruct (Nat.eq_dec i p) as [->|Y]; [apply right_refit, refit_at|]. apply right_refit, right_refit.
    unfold erase. apply (right_left _ (skipn (S p) l)); [rewrite firstn_length; lia|]. rewrite firstn_skipn. apply R.
  - apply refit_at.
  - apply right_refit, right_refit. unfold erase.
    replace i with (length (firstn (S p) l) + S (i - S p - 1)) by (rewrite firstn_length; lia).
    apply (right_right (firstn (S (S p)) l)). rewrite firstn_skipn. apply R.
Qed.
End P.
