(** * Parallel apply: the invariant of the whole system *)

From Coq Require Import ZArith List Bool Lia Permutation.
From Verif Require Import Outcome Lib MpiModel MpiSpec MpiStatic MpiWorker.
Import ListNotations.
Local Open Scope Z_scope.

(** ** Lists indexed by workers *)

Fixpoint sumw (g : Z -> nat) (ws : list Z) : nat :=
  match ws with [] => 0 | w :: ws' => g w + sumw g ws' end.

Lemma sumw_ext g h ws : (forall x, In x ws -> g x = h x) -> sumw g ws = sumw h ws.
Proof.
  induction ws as [|a ws IH]; intros H; [reflexivity|]. cbn. rewrite (H a), IH; auto.
  - intros x Hx. apply H. now right.
  - now left.
Qed.

Lemma sumw_set {B} (m : B -> nat) (g : Z -> B) ws w b : NoDup ws -> In w ws ->
  (sumw (fun x => m (set_fn g w b x)) ws + m (g w) = sumw (fun x => m (g x)) ws + m b)%nat.
Proof.
  induction ws as [|x ws IH]; intros ND H; [destruct H|]. inversion ND; subst. cbn.
  destruct (Z.eq_dec x w) as [E|E].
  - subst. rewrite set_fn_eq.
    rewrite (sumw_ext (fun x => m (set_fn g w b x)) (fun x => m (g x)) ws); [lia|].
    intros y Hy. rewrite set_fn_neq; [reflexivity|]. intros ->; contradiction.
  - rewrite set_fn_neq by assumption. destruct H as [H|H]; [contradiction|].
    specialize (IH H3 H). lia.
Qed.

Lemma flat_map_ext_in {B C} (g h : B -> list C) l :
  (forall x, In x l -> g x = h x) -> flat_map g l = flat_map h l.
Proof.
  induction l as [|a l IH]; intros H; [reflexivity|]. cbn. rewrite (H a), IH; auto.
  - intros x Hx. apply H. now right.
  - now left.
Qed.

Lemma flat_set {B C} (m : B -> list C) (g : Z -> B) ws w b : NoDup ws -> In w ws ->
  exists rest, Permutation (flat_map (fun x => m (g x)) ws) (m (g w) ++ rest) /\
    Permutation (flat_map (fun x => m (set_fn g w b x)) ws) (m b ++ rest).
Proof.
  intros ND H. destruct (in_split w ws H) as (l1 & l2 & ->).
  assert (N : forall y, In y (l1 ++ l2) -> y <> w).
  { intros y Hy ->. apply NoDup_remove_2 in ND. contradiction. }
  exists (flat_map (fun x => m (g x)) l1 ++ flat_map (fun x => m (g x)) l2).
  split.
  - rewrite flat_map_app. cbn. apply Permutation_app_swap_app.
  - rewrite flat_map_app. cbn. rewrite set_fn_eq.
    rewrite (flat_map_ext_in (fun x => m (set_fn g w b x)) (fun x => m (g x)) l1).
    2:{ intros y Hy. rewrite set_fn_neq; [reflexivity|]. apply N. apply in_or_app. now left. }
    rewrite (flat_map_ext_in (fun x => m (set_fn g w b x)) (fun x => m (g x)) l2).
    2:{ intros y Hy. rewrite set_fn_neq; [reflexivity|]. apply N. apply in_or_app. now right. }
    apply Permutation_app_swap_app.
Qed.

Lemma list_sum_cons x l : list_sum (x :: l) = (x + list_sum l)%nat.
Proof. reflexivity. Qed.

(** ** Packets *)

Lemma packets_step packet r : (0 < packet)%nat -> (0 < r)%nat ->
  packets packet r = S (packets packet (r - Nat.min packet r)).
Proof.
  intros HP HR. unfold packets. destruct (Nat.le_gt_cases packet r) as [L|L].
  - rewrite Nat.min_l by exact L.
    replace (r + packet - 1)%nat with ((r - packet + packet - 1) + 1 * packet)%nat by lia.
    rewrite Nat.div_add by lia. lia.
  - rewrite Nat.min_r by lia. rewrite Nat.sub_diag. cbn.
    rewrite (Nat.div_small (packet - 1)) by lia.
    replace (r + packet - 1)%nat with ((r - 1) + 1 * packet)%nat by lia.
    rewrite Nat.div_add by lia. rewrite (Nat.div_small (r - 1)) by lia. lia.
Qed.

Lemma packets_pos packet r : (0 < packet)%nat -> (0 < r)%nat -> (1 <= packets packet r)%nat.
Proof. intros HP HR. rewrite packets_step by assumption. lia. Qed.

Lemma packets_0 packet : (0 < packet)%nat -> packets packet 0 = 0%nat.
Proof. intros HP. unfold packets. apply Nat.div_small. lia. Qed.

(** ** Slices *)

Definition slice {T} (l : list T) (i n : nat) : list T := firstn n (skipn i l).

Lemma slice_length {T} (l : list T) i n : (i + n <= length l)%nat -> length (slice l i n) = n.
Proof. intros H. unfold slice. rewrite firstn_length, skipn_length. lia. Qed.

Lemma slice_nth {T} (l : list T) i n p : (p < n)%nat -> nth_error (slice l i n) p = nth_error l (i + p).
Proof.
  intros H. unfold slice. rewrite firstn_nth_error by exact H. now rewrite skipn_nth_error.
Qed.

Lemma write_nth {T} (t l : list T) i n t' : write_back t i n l = Ok t' ->
  length t' = length t /\
  forall p, nth_error t' p =
    if (i <=? p)%nat && (p <? i + n)%nat then nth_error l (p - i) else nth_error t p.
Proof.
  unfold write_back. destruct ((n <=? length l)%nat && (i + n <=? length t)%nat) eqn:E; [|discriminate].
  apply andb_prop in E as [E1 E2]. apply Nat.leb_le in E1, E2. intros H. injection H as <-.
  split.
  - rewrite !app_length, !firstn_length, skipn_length. lia.
  - intros p. destruct (Nat.lt_ge_cases p i) as [L|L].
    + rewrite nth_error_app1 by (rewrite firstn_length; lia).
      rewrite firstn_nth_error by exact L.
      rewrite (proj2 (Nat.leb_gt i p)) by exact L. reflexivity.
    + rewrite nth_error_app2 by (rewrite firstn_length; lia).
      rewrite firstn_length, (Nat.min_l i (length t)) by lia.
      rewrite (proj2 (Nat.leb_le i p)) by exact L. cbn [andb].
      destruct (p <? i + n)%nat eqn:C.
      * apply Nat.ltb_lt in C. rewrite nth_error_app1 by (rewrite firstn_length; lia).
        rewrite firstn_nth_error by lia. reflexivity.
      * apply Nat.ltb_ge in C. rewrite nth_error_app2 by (rewrite firstn_length; lia).
        rewrite firstn_length, (Nat.min_l n (length l)) by lia.
        rewrite skipn_nth_error. f_equal. lia.
Qed.

Section Apply.
Context {T A : Type}.
Variable f : T -> T.
Variable packet : nat.
Variable a_get : A -> res (A * Z).
Variable a_avail : A -> Z.
Variable a_confirm : A -> Z -> res A.
Variable a_idles : A -> res (list Z).

Notation world := (world T A).
Notation step := (step f packet a_get a_avail a_confirm a_idles).
Notation future := (future packet).

Variable ws : list Z.
Hypothesis ws_nodup : NoDup ws.
Hypothesis ws_pos : forall w, In w ws -> 0 < w.
Hypothesis packet_pos : (0 < packet)%nat.

(** What the job needs of an assignment: [R a bz n] says that the assignment [a]
    considers exactly the workers [w] with [bz w] as busy and can still hand
    out at least [n] jobs. *)
Variable R : A -> (Z -> bool) -> nat -> Prop.

Record contract : Prop := {
  c_idles : forall a bz n, R a bz n ->
    exists l, a_idles a = Ok l /\ Permutation l (filter (fun w => negb (bz w)) ws);
  c_avail : forall a bz n, R a bz n ->
    a_avail a = Z.of_nat (length (filter (fun w => negb (bz w)) ws));
  c_get : forall a bz n, R a bz n ->
    (exists w a', a_get a = Ok (a', w) /\ In w ws /\ bz w = false /\
       R a' (set_fn bz w true) (pred n))
    \/ (exists r a', a_get a = Ok (a', r) /\ r <= 0 /\ R a' bz n /\
          (n = 0%nat \/ exists w, In w ws /\ bz w = true));
  c_confirm : forall a bz n w, R a bz n -> In w ws -> bz w = true ->
    exists a', a_confirm a w = Ok a' /\ R a' (set_fn bz w false) n }.

Hypothesis C : contract.

(** ** The invariant *)

Definition special (p : mpc) (w : Z) : bool :=
  match p with
  | MOrder x | MSize x | MData x | MLast x => x =? w
  | _ => false
  end.

Definition active (p : mpc) : bool :=
  match p with MNext | MEmpty _ | MKill _ | MEnd => false | _ => true end.

Definition sending (p : mpc) : nat :=
  match p with MOrder _ | MSize _ | MData _ => 1 | _ => 0 end.

(** A worker that has a packet in its hands. *)
Definition out (s : world) (bz : Z -> bool) (w : Z) : bool := bz w && negb (special (pc s) w).

Definition normal (s : world) (t0 : list T) (bz : Z -> bool) (w : Z) : worker T -> Prop :=
  if bz w then working f (slice t0 (fst (assigned s w)) (snd (assigned s w))) else is_idle.

Definition sit (s : world) (t0 : list T) (bz : Z -> bool) (w : Z) : worker T -> Prop :=
  match pc s with
  | MOrder x | MLast x => if x =? w then is_idle else normal s t0 bz w
  | MSize x => if x =? w then is_called else normal s t0 bz w
  | MData x => if x =? w then is_sized (future s - index s) else normal s t0 bz w
  | MKill l => if in_dec Z.eq_dec w l then is_idle else is_gone
  | MEnd => is_gone
  | _ => normal s t0 bz w
  end.

Definition at_pc (s : world) (bz : Z -> bool) : Prop :=
  match pc s with
  | MNext | MLoop => True
  | MWait => (index s < length (table s))%nat /\ exists w, In w ws /\ bz w = true
  | MOrder w | MSize w => (index s < length (table s))%nat /\ In w ws /\ bz w = true
  | MData w => (index s < length (table s))%nat /\ In w ws /\ bz w = true /\
               assigned s w = (index s, (future s - index s)%nat)
  | MFree l => index s = length (table s) /\ (length l <= length ws)%nat /\
               forall w, In w l -> In w ws /\ bz w = false
  | MDrain => index s = length (table s)
  | MLast w => index s = length (table s) /\ In w ws /\ bz w = true
  | MEmpty l => incl l ws /\ (length l <= length ws)%nat /\ todo s = []
  | MKill l => incl l ws /\ NoDup l /\ todo s = []
  | MEnd => todo s = []
  end.

Definition needed (s : world) (t0 : list T) : nat :=
  (packets packet (length t0 - index s)
   + list_sum (map (fun t => packets packet (length t)) (todo s)))%nat.

Record inv (tables : list (list T)) (s : world) (t0 : list T) (done : list (list T))
    (bz : Z -> bool) (n : nat) : Prop := {
  i_R : R (alg s) bz n;
  i_need : (needed s t0 <= n + sending (pc s))%nat;
  i_len : length (table s) = length t0;
  i_idx : (index s <= length t0)%nat;
  i_end : active (pc s) = false -> index s = length t0;
  i_tables : tables = done ++ (if active (pc s) then [t0] else []) ++ todo s;
  i_results : results s = map (map f) done;
  i_total : pc s <> MNext -> total s = Z.of_nat (length ws);
  i_quiet : active (pc s) = false -> forall w, In w ws -> bz w = false;
  i_pc : at_pc s bz;
  i_wk : forall w, In w ws -> sit s t0 bz w (wk s w);
  i_else : forall w, ~ In w ws -> wk s w = mkWorker WOrder [] [] [];
  i_bound : forall w, In w ws -> out s bz w = true ->
    (fst (assigned s w) + snd (assigned s w) <= index s)%nat;
  i_disj : forall v w, In v ws -> In w ws -> v <> w -> out s bz v = true -> out s bz w = true ->
    (fst (assigned s v) + snd (assigned s v) <= fst (assigned s w))%nat \/
    (fst (assigned s w) + snd (assigned s w) <= fst (assigned s v))%nat;
  i_done : forall p, (p < index s)%nat ->
    (forall w, In w ws -> out s bz w = true ->
       ~ (fst (assigned s w) <= p < fst (assigned s w) + snd (assigned s w))%nat) ->
    nth_error (table s) p = option_map f (nth_error t0 p);
  i_todo : forall p, (index s <= p)%nat -> nth_error (table s) p = nth_error t0 p;
  i_calls : Permutation
    (calls s ++ flat_map (fun w => inflight (wk s w)) ws ++ skipn (index s) t0 ++ concat (todo s))
    (concat tables) }.

Definition Inv (tables : list (list T)) (s : world) : Prop :=
  exists t0 done bz n, inv tables s t0 done bz n.

(** ** The measure *)

Definition mm (p : mpc) : nat :=
  let W := length ws in
  match p with
  | MEnd => 0
  | MKill l => 2 * length l + 1
  | MEmpty l => 2 * length l + 2 * W + 2
  | MNext => 4 * W + 3
  | MDrain => 4 * W + 4
  | MLast _ => 4 * W + 6
  | MFree l => 2 * length l + 4 * W + 5
  | MData _ => 6 * W + 6
  | MSize _ => 6 * W + 8
  | MOrder _ | MWait => 6 * W + 10
  | MLoop => 6 * W + 11
  end.

Definition job_cost (t : list T) : nat := 6 * length ws + 12 + 12 * length t.

Definition measure (s : world) : nat :=
  mm (pc s) + 12 * (length (table s) - index s) + list_sum (map job_cost (todo s))
  + sumw (fun w => wm (wk s w)) ws.

(** ** Steps of a worker *)

Lemma sit_cases s t0 bz w k : sit s t0 bz w k ->
  is_idle k \/ is_called k \/ (exists n, is_sized n k) \/ (exists l, working f l k) \/ is_gone k.
Proof.
  unfold sit, normal.
  destruct (pc s); repeat match goal with |- context [if ?b then _ else _] => destruct b end; eauto 8.
Qed.

Lemma sit_kept s t0 bz w : kept f (sit s t0 bz w).
Proof.
  unfold sit, normal.
  destruct (pc s); repeat match goal with |- context [if ?b then _ else _] => destruct b end;
  first [apply idle_kept|apply called_kept|apply sized_kept|apply working_kept|apply gone_kept].
Qed.

Lemma sit_not_bad s t0 bz w k : sit s t0 bz w k -> local f k <> WBad.
Proof.
  intros H. destruct (sit_cases s t0 bz w k H) as [H1|[H1|[(n & H1)|[(l & H1)|H1]]]].
  - now apply idle_not_bad.
  - now apply is_called_not_bad.
  - now apply (sized_not_bad f n).
  - now apply (working_not_bad f l).
  - now apply gone_not_bad.
Qed.

Lemma worker_inv tables s w : Inv tables s ->
  match step s (LWorker w) with
  | Blocked => True
  | Bad => False
  | Next s' => Inv tables s' /\ (measure s' < measure s)%nat
  end.
Proof.
  intros (t0 & done & bz & n & I). cbn [MpiModel.step]. rewrite worker_step_local.
  destruct (in_dec Z.eq_dec w ws) as [Hw|Hw].
  - pose proof (i_wk _ _ _ _ _ _ I w Hw) as S0.
    destruct (local f (wk s w)) as [| |k xs] eqn:EL; [exact Logic.I| |].
    { exact (sit_not_bad _ _ _ _ _ S0 EL). }
    destruct (sit_kept s t0 bz w _ _ _ S0 EL) as (S1 & M & P).
    split.
    + exists t0, done, bz, n. destruct I. constructor; cbn [pc alg total table index assigned todo results wk calls]; auto.
      * intros v Hv. destruct (Z.eq_dec v w) as [->|N].
        { rewrite set_fn_eq. exact S1. }
        { rewrite set_fn_neq by exact N. exact (i_wk0 v Hv). }
      * intros v Hv. rewrite set_fn_neq; [now apply i_else0|]. intros ->; contradiction.
      * rewrite <- i_calls0.
        destruct (flat_set (@inflight T) (wk s) ws w k ws_nodup Hw) as (rest & P1 & P2).
        rewrite P1, P2, P. rewrite <- !app_assoc. apply Permutation_refl.
    + unfold measure. cbn [pc table index todo wk].
      pose proof (sumw_set (@wm T) (wk s) ws w k ws_nodup Hw). lia.
  - rewrite (i_else _ _ _ _ _ _ I w Hw). exact Logic.I.
Qed.

(** ** Steps of the master *)

Notation ask := (ask a_get).
Notation Good tables s o :=
  (match o with Next s' => Inv tables s' /\ (measure s' < measure s)%nat | _ => False end).

Ltac fields := cbn [pc alg total table index assigned todo results wk calls goto set_alg set_wk order post] in *.

Lemma bool_neq (b : bool) : b = true -> b = false -> False.
Proof. congruence. Qed.

Lemma eqb_neq x y : x <> y -> (x =? y) = false.
Proof. intros N. now apply Z.eqb_neq. Qed.

Lemma ask_inv tables s t0 done bz n :
  inv tables s t0 done bz n -> pc s = MLoop -> (index s < length (table s))%nat ->
  Good tables s (ask s).
Proof.
  intros I EP HI. destruct I. unfold MpiModel.ask.
  destruct (c_get C _ _ _ i_R0) as [(w & a' & E & Hw & Bw & R')|(r & a' & E & Hr & R' & HB)];
    rewrite E; cbn [of_res].
  - rewrite (proj2 (Z.leb_gt w 0)) by (apply ws_pos; exact Hw).
    assert (OUT : forall x, out (goto (set_alg s a') (MOrder w)) (set_fn bz w true) x = true ->
                   x <> w /\ out s bz x = true).
    { intros x. unfold out. fields. cbn [special]. rewrite EP. cbn [special].
      destruct (Z.eq_dec x w) as [->|N].
      - rewrite Z.eqb_refl, andb_false_r. discriminate.
      - rewrite set_fn_neq by exact N. rewrite (eqb_neq w x) by congruence. auto. }
    assert (OUT' : forall x, out s bz x = true ->
                   out (goto (set_alg s a') (MOrder w)) (set_fn bz w true) x = true).
    { intros x. unfold out. fields. cbn [special]. rewrite EP. cbn [special].
      destruct (Z.eq_dec x w) as [->|N].
      - rewrite Bw. discriminate.
      - rewrite set_fn_neq by exact N. rewrite (eqb_neq w x) by congruence. auto. }
    split.
    + exists t0, done, (set_fn bz w true), (pred n). rewrite EP in *. constructor; fields; try assumption; try discriminate.
      * cbn [sending]. unfold needed in *. fields. cbn in i_need0. lia.
      * intros _. apply i_total0. discriminate.
      * unfold at_pc. fields. rewrite set_fn_eq. auto.
      * intros x Hx. specialize (i_wk0 x Hx). unfold sit in *. fields. rewrite EP in i_wk0.
        unfold normal in *. fields. destruct (Z.eq_dec x w) as [->|N].
        { rewrite Z.eqb_refl. rewrite Bw in i_wk0. exact i_wk0. }
        { rewrite (eqb_neq w x) by congruence. rewrite set_fn_neq by exact N. exact i_wk0. }
      * intros x Hx Ho. apply OUT in Ho as [_ Ho]. now apply i_bound0.
      * intros v x Hv Hx N Ho1 Ho2. apply OUT in Ho1 as [_ Ho1]. apply OUT in Ho2 as [_ Ho2].
        now apply i_disj0.
      * intros p Hp HO. apply i_done0; [exact Hp|]. intros x Hx Ho. apply HO; [exact Hx|].
        now apply OUT'.
    + unfold measure. fields. rewrite EP. cbn [mm]. lia.
  - rewrite (proj2 (Z.leb_le r 0)) by exact Hr.
    assert (BZ : exists w, In w ws /\ bz w = true).
    { destruct HB as [->|HB]; [|exact HB]. exfalso. rewrite EP in i_need0. cbn in i_need0.
      unfold needed in i_need0.
      pose proof (packets_pos packet (length t0 - index s) packet_pos ltac:(lia)). lia. }
    split.
    + exists t0, done, bz, n. rewrite EP in *. constructor; fields; try assumption; try discriminate.
      * intros _. apply i_total0. discriminate.
      * unfold at_pc. fields. auto.
      * intros x Hx. specialize (i_wk0 x Hx). unfold sit in *. fields. rewrite EP in i_wk0.
        exact i_wk0.
      * intros x Hx Ho. apply i_bound0; [exact Hx|]. unfold out in *. fields. rewrite EP. exact Ho.
      * intros v x Hv Hx N Ho1 Ho2. apply i_disj0; auto; unfold out in *; fields; rewrite EP; assumption.
      * intros p Hp HO. apply i_done0; [exact Hp|]. intros x Hx Ho. apply HO; [exact Hx|].
        unfold out in *. fields. rewrite EP in Ho. exact Ho.
    + unfold measure. fields. rewrite EP. cbn [mm]. lia.
Qed.

(** A step that changes only the point of the master and the queues. *)
Lemma move_inv tables s s' t0 done bz n :
  inv tables s t0 done bz n ->
  alg s' = alg s -> total s' = total s -> table s' = table s -> index s' = index s ->
  assigned s' = assigned s -> todo s' = todo s -> results s' = results s -> calls s' = calls s ->
  Permutation (flat_map (fun x => inflight (wk s' x)) ws) (flat_map (fun x => inflight (wk s x)) ws) ->
  (forall w, ~ In w ws -> wk s' w = wk s w) ->
  (forall w, In w ws -> out s' bz w = out s bz w) ->
  active (pc s') = active (pc s) -> sending (pc s') = sending (pc s) -> pc s <> MNext ->
  (forall w, In w ws -> sit s' t0 bz w (wk s' w)) ->
  at_pc s' bz ->
  inv tables s' t0 done bz n.
Proof.
  intros I E1 E2 E3 E4 E5 E6 E7 E8 HP HE OUT EA ES NN HS HA. destruct I.
  constructor; rewrite ?E1, ?E2, ?E3, ?E4, ?E5, ?E6, ?E7, ?E8, ?EA, ?ES; try assumption.
  - unfold needed in *. rewrite E4, E6. exact i_need0.
  - intros _. now apply i_total0.
  - intros w Hw. rewrite HE by exact Hw. now apply i_else0.
  - intros w Hw Ho. rewrite OUT in Ho by exact Hw. now apply i_bound0.
  - intros v w Hv Hw N Ho1 Ho2. rewrite OUT in Ho1 by exact Hv. rewrite OUT in Ho2 by exact Hw.
    now apply i_disj0.
  - intros q Hq HO. apply i_done0; [exact Hq|]. intros w Hw Ho. apply HO; [exact Hw|].
    now rewrite OUT.
  - rewrite HP. exact i_calls0.
Qed.

(** Ordering something to a worker changes only that worker. *)
Lemma order_calls (s : world) w c : In w ws ->
  Permutation (flat_map (fun x => inflight (wk (order s w c) x)) ws)
              (flat_map (fun x => inflight (wk s x)) ws).
Proof.
  intros Hw. cbn [order set_wk wk]. fold (ordered (wk s w) c).
  destruct (flat_set (@inflight T) (wk s) ws w (ordered (wk s w) c) ws_nodup Hw) as (rest & P1 & P2).
  rewrite P1, P2. apply Permutation_refl.
Qed.

Lemma order_measure (s : world) w c : In w ws ->
  sumw (fun x => wm (wk (order s w c) x)) ws = S (sumw (fun x => wm (wk s x)) ws).
Proof.
  intros Hw. cbn [order set_wk wk]. fold (ordered (wk s w) c).
  pose proof (sumw_set (@wm T) (wk s) ws w (ordered (wk s w) c) ws_nodup Hw) as E.
  rewrite ordered_wm in E. lia.
Qed.

Lemma order_else (s : world) w c x : In w ws -> ~ In x ws -> wk (order s w c) x = wk s x.
Proof. intros Hw Hx. cbn [order set_wk wk]. apply set_fn_neq. intros ->; contradiction. Qed.

Lemma order_wk (s : world) w c x : wk (order s w c) x = if x =? w then ordered (wk s w) c else wk s x.
Proof. reflexivity. Qed.

Lemma idles_length bz l : Permutation l (filter (fun w => negb (bz w)) ws) ->
  (length l <= length ws)%nat /\ NoDup l /\ forall w, In w l -> In w ws /\ bz w = false.
Proof.
  intros P. split; [|split].
  - rewrite (Permutation_length P). clear. induction ws as [|x l IH]; [auto|]. cbn.
    destruct (negb (bz x)); cbn; lia.
  - eapply Permutation_NoDup; [apply Permutation_sym; exact P|]. now apply NoDup_filter.
  - intros w Hw. apply (Permutation_in _ P) in Hw. apply filter_In in Hw as [H1 H2].
    split; [exact H1|]. now destruct (bz w).
Qed.

Lemma all_idle bz : (forall w, In w ws -> bz w = false) -> filter (fun w => negb (bz w)) ws = ws.
Proof.
  clear. intros H. induction ws as [|x l IH]; [reflexivity|]. cbn. rewrite (H x) by now left. cbn.
  f_equal. apply IH. intros w Hw. apply H. now right.
Qed.

Lemma someone_busy bz : length (filter (fun w => negb (bz w)) ws) <> length ws ->
  exists w, In w ws /\ bz w = true.
Proof.
  clear. induction ws as [|x l IH]; intros H; [cbn in H; congruence|]. cbn in H.
  destruct (bz x) eqn:B; [exists x; split; [now left|exact B]|]. cbn in H.
  destruct IH as (w & Hw & Bw); [lia|]. exists w. split; [now right|exact Bw].
Qed.

Lemma nobody_busy bz : length (filter (fun w => negb (bz w)) ws) = length ws ->
  forall w, In w ws -> bz w = false.
Proof.
  clear. induction ws as [|x l IH]; intros H w Hw; [destruct Hw|]. cbn in H.
  assert (L : (length (filter (fun w => negb (bz w)) l) <= length l)%nat).
  { clear. induction l as [|y l IH]; [auto|]. cbn. destruct (negb (bz y)); cbn; lia. }
  destruct (bz x) eqn:B; cbn in H; [lia|].
  destruct Hw as [->|Hw]; [exact B|]. apply IH; [lia|exact Hw].
Qed.

Lemma out_nonspecial (s : world) bz w : special (pc s) w = false -> out s bz w = bz w.
Proof. intros E. unfold out. rewrite E. apply andb_true_r. Qed.

Lemma next_step tables s : Inv tables s -> pc s = MNext -> Good tables s (step s LMaster).
Proof.
  intros (t0 & done & bz & n & I) EP. destruct I. cbn [MpiModel.step]. unfold master_step. rewrite EP in *.
  assert (BZ : forall w, In w ws -> bz w = false) by (apply i_quiet0; reflexivity).
  assert (IE : index s = length t0) by (apply i_end0; reflexivity).
  assert (AV : a_avail (alg s) = Z.of_nat (length ws)).
  { rewrite (c_avail C _ _ _ i_R0), all_idle by exact BZ. reflexivity. }
  assert (ID : forall w, In w ws -> is_idle (wk s w)).
  { intros w Hw. specialize (i_wk0 w Hw). unfold sit, normal in i_wk0. rewrite EP, BZ in i_wk0; auto. }
  assert (SK : skipn (index s) t0 = []) by (rewrite IE; apply skipn_all).
  destruct (todo s) as [|t ts] eqn:ET.
  - destruct (c_idles C _ _ _ i_R0) as (l & El & P). rewrite El. cbn [of_res].
    destruct (idles_length bz l P) as (L1 & L2 & L3). split.
    + exists t0, done, bz, n. constructor; fields; try assumption.
      * unfold needed in *. fields. rewrite ET in i_need0. exact i_need0.
      * intros _. exact AV.
      * unfold at_pc. fields. split; [|auto]. intros x Hx. now apply L3.
      * intros w Hw. unfold sit, normal. fields. rewrite BZ by exact Hw. now apply ID.
      * intros w Hw Ho. unfold out in Ho. rewrite BZ in Ho by exact Hw. discriminate.
      * intros v w Hv Hw N Ho. unfold out in Ho. rewrite BZ in Ho by exact Hv. discriminate.
      * intros p Hp HO. apply i_done0; [exact Hp|]. intros w Hw Ho. unfold out in Ho.
        rewrite BZ in Ho by exact Hw. discriminate.
    + unfold measure. fields. rewrite EP, ET. cbn [mm]. lia.
  - split.
    + exists t, done, bz, n. constructor; fields; try assumption.
      * unfold needed in *. fields. rewrite ET in i_need0. rewrite Nat.sub_0_r.
        rewrite map_cons, list_sum_cons in i_need0. cbn [sending] in *. lia.
      * reflexivity.
      * lia.
      * discriminate.
      * intros _. exact AV.
      * discriminate.
      * exact Logic.I.
      * intros w Hw. unfold sit, normal. fields. rewrite BZ by exact Hw. now apply ID.
      * intros w Hw Ho. unfold out in Ho. rewrite BZ in Ho by exact Hw. discriminate.
      * intros v w Hv Hw N Ho. unfold out in Ho. rewrite BZ in Ho by exact Hv. discriminate.
      * intros p Hp. lia.
      * reflexivity.
      * rewrite SK in i_calls0. exact i_calls0.
    + unfold measure. fields. rewrite EP, ET. cbn [mm].
      rewrite map_cons, list_sum_cons. unfold job_cost at 2. lia.
Qed.

Lemma loop_step tables s : Inv tables s -> pc s = MLoop -> Good tables s (step s LMaster).
Proof.
  intros (t0 & done & bz & n & I) EP. cbn [MpiModel.step]. unfold master_step. rewrite EP.
  destruct (Nat.eqb_spec (index s) (length (table s))) as [E|E].
  - destruct (c_idles C _ _ _ (i_R _ _ _ _ _ _ I)) as (l & El & P). rewrite El. cbn [of_res].
    destruct (idles_length bz l P) as (L1 & L2 & L3). split.
    + exists t0, done, bz, n. apply (move_inv tables s); auto; fields; rewrite ?EP; auto; try discriminate.
      * intros w Hw. unfold out. fields. now rewrite EP.
      * intros w Hw. pose proof (i_wk _ _ _ _ _ _ I w Hw) as S0. unfold sit in *. fields.
        rewrite EP in S0. exact S0.
      * unfold at_pc. fields. auto.
    + unfold measure. fields. rewrite EP. cbn [mm]. lia.
  - apply (ask_inv tables s t0 done bz n I EP).
    pose proof (i_idx _ _ _ _ _ _ I). pose proof (i_len _ _ _ _ _ _ I). lia.
Qed.

Lemma order_step tables s w : Inv tables s -> pc s = MOrder w -> Good tables s (step s LMaster).
Proof.
  intros (t0 & done & bz & n & I) EP. cbn [MpiModel.step]. unfold master_step. rewrite EP.
  pose proof (i_pc _ _ _ _ _ _ I) as HP. unfold at_pc in HP. rewrite EP in HP. destruct HP as (HI & Hw & Bw).
  split.
  - exists t0, done, bz, n. apply (move_inv tables s); auto; fields; rewrite ?EP; auto; try discriminate.
    + apply (order_calls s w Continue Hw).
    + intros x Hx. apply (order_else s w Continue x Hw Hx).
    + intros x Hx. unfold out. fields. now rewrite EP.
    + intros x Hx. pose proof (i_wk _ _ _ _ _ _ I x Hx) as S0. unfold sit in *. fields.
      rewrite EP in S0. destruct (Z.eq_dec x w) as [->|N].
      * rewrite Z.eqb_refl in *. rewrite set_fn_eq. now apply idle_continue.
      * rewrite (eqb_neq w x) in * by congruence. rewrite set_fn_neq by exact N. exact S0.
    + unfold at_pc. fields. auto.
  - unfold measure. pose proof (order_measure s w Continue Hw) as E. fields. rewrite EP. cbn [mm]. lia.
Qed.

Lemma future_spec (s : world) : (index s < length (table s))%nat ->
  (future s - index s = Nat.min packet (length (table s) - index s))%nat /\
  (index s < future s <= length (table s))%nat.
Proof.
  intros H. unfold MpiModel.future. destruct (Nat.ltb_spec (index s + packet) (length (table s))); lia.
Qed.

Lemma size_step tables s w : Inv tables s -> pc s = MSize w -> Good tables s (step s LMaster).
Proof.
  intros (t0 & done & bz & n & I) EP. cbn [MpiModel.step]. unfold master_step. rewrite EP.
  pose proof (i_pc _ _ _ _ _ _ I) as HP. unfold at_pc in HP. rewrite EP in HP. destruct HP as (HI & Hw & Bw).
  set (k := (future s - index s)%nat).
  split.
  - exists t0, done, bz, n. destruct I. rewrite EP in *.
    assert (OUT : forall x b a, out (mkWorld (MData w) (alg s) (total s) (table s) (index s) a
                     (todo s) (results s) b (calls s)) bz x = out s bz x).
    { intros. unfold out. fields. now rewrite EP. }
    assert (NW : forall x, out s bz x = true -> x <> w).
    { intros x Ho ->. unfold out in Ho. rewrite EP in Ho. cbn [special] in Ho.
      rewrite Z.eqb_refl, andb_false_r in Ho. discriminate. }
    constructor; fields; try assumption; try discriminate.
    + intros _. apply i_total0. discriminate.
    + unfold at_pc. fields. rewrite set_fn_eq. auto.
    + intros x Hx. specialize (i_wk0 x Hx). unfold sit, normal in *. fields. rewrite EP in i_wk0.
      destruct (Z.eq_dec x w) as [->|N].
      * rewrite Z.eqb_refl in *. rewrite set_fn_eq. apply called_size. exact i_wk0.
      * rewrite (eqb_neq w x) in * by congruence. rewrite !set_fn_neq by exact N. exact i_wk0.
    + intros x Hx. rewrite set_fn_neq; [now apply i_else0|]. intros ->; contradiction.
    + intros x Hx Ho. rewrite OUT in Ho. rewrite set_fn_neq by (now apply NW). now apply i_bound0.
    + intros u v Hu Hv N Ho1 Ho2. rewrite OUT in Ho1, Ho2.
      rewrite !set_fn_neq by (now apply NW). now apply i_disj0.
    + intros p Hp HO. apply i_done0; [exact Hp|]. intros x Hx Ho.
      specialize (HO x Hx). rewrite OUT in HO. specialize (HO Ho).
      rewrite set_fn_neq in HO by (now apply NW). exact HO.
    + rewrite <- i_calls0. apply Permutation_app_head. apply Permutation_app_tail.
      destruct (flat_set (@inflight T) (wk s) ws w (posted (wk s w) (PSize k)) ws_nodup Hw) as (rest & P1 & P2).
      change (mkWorker (at_ (wk s w)) (orders (wk s w)) (tasks (wk s w) ++ [PSize k]) (answers (wk s w)))
        with (posted (wk s w) (PSize k)).
      rewrite P1, P2. rewrite posted_inflight. apply Permutation_refl.
  - unfold measure. fields. rewrite EP. cbn [mm].
    change (mkWorker (at_ (wk s w)) (orders (wk s w)) (tasks (wk s w) ++ [PSize k]) (answers (wk s w)))
      with (posted (wk s w) (PSize k)).
    pose proof (sumw_set (@wm T) (wk s) ws w (posted (wk s w) (PSize k)) ws_nodup Hw) as E.
    rewrite posted_wm in E. cbn [load] in E. lia.
Qed.

Lemma skipn_ext {B} (l1 l2 : list B) i :
  (forall p, (i <= p)%nat -> nth_error l1 p = nth_error l2 p) -> skipn i l1 = skipn i l2.
Proof.
  intros H. apply nth_error_ext. intros p. rewrite !skipn_nth_error. apply H. lia.
Qed.

Lemma data_step tables s w : Inv tables s -> pc s = MData w -> Good tables s (step s LMaster).
Proof.
  intros (t0 & done & bz & n & I) EP. cbn [MpiModel.step]. unfold master_step. rewrite EP.
  pose proof (i_pc _ _ _ _ _ _ I) as HP. unfold at_pc in HP. rewrite EP in HP.
  destruct HP as (HI & Hw & Bw & AS).
  destruct (future_spec s HI) as (FM & FB).
  set (k := (future s - index s)%nat) in *.
  assert (SL : firstn k (skipn (index s) (table s)) = slice t0 (index s) k).
  { unfold slice. f_equal. apply skipn_ext. exact (i_todo _ _ _ _ _ _ I). }
  rewrite SL.
  assert (LS : length (slice t0 (index s) k) = k).
  { apply slice_length. pose proof (i_len _ _ _ _ _ _ I). lia. }
  set (l := slice t0 (index s) k) in *.
  change (post s w (PArray l)) with (set_wk s w (posted (wk s w) (PArray l))).
  split.
  - exists t0, done, bz, n. destruct I. rewrite EP in *.
    assert (OUT : forall x b, out (mkWorld MLoop (alg s) (total s) (table s) (future s) (assigned s)
                     (todo s) (results s) b (calls s)) bz x = true -> x = w \/ out s bz x = true).
    { intros x b Ho. destruct (Z.eq_dec x w) as [->|N]; [now left|]. right.
      unfold out in *. fields. rewrite EP. cbn [special] in *. rewrite (eqb_neq w x) by congruence. exact Ho. }
    assert (OUT' : forall x b, x = w \/ out s bz x = true -> out (mkWorld MLoop (alg s) (total s) (table s) (future s) (assigned s)
                     (todo s) (results s) b (calls s)) bz x = true).
    { intros x b [->|Ho].
      - unfold out. fields. rewrite Bw. reflexivity.
      - unfold out in *. fields. rewrite EP in Ho. cbn [special] in *.
        apply andb_prop in Ho as [Ho _]. now rewrite Ho. }
    constructor; fields; try assumption; try discriminate.
    + unfold needed in *. fields. cbn [sending] in *.
      rewrite (packets_step packet (length t0 - index s)) in i_need0 by lia.
      replace (length t0 - future s)%nat
        with (length t0 - index s - Nat.min packet (length t0 - index s))%nat by lia.
      lia.
    + lia.
    + intros _. apply i_total0. discriminate.
    + exact Logic.I.
    + intros x Hx. specialize (i_wk0 x Hx). unfold sit, normal in *. fields. rewrite EP in i_wk0.
      destruct (Z.eq_dec x w) as [->|N].
      * rewrite Z.eqb_refl in *. rewrite set_fn_eq, Bw, AS. cbn [fst snd]. apply sized_data.
        fold l. rewrite LS. exact i_wk0.
      * rewrite (eqb_neq w x) in * by congruence. rewrite !set_fn_neq by exact N. exact i_wk0.
    + intros x Hx. rewrite set_fn_neq; [now apply i_else0|]. intros ->; contradiction.
    + intros x Hx Ho. apply OUT in Ho as [->|Ho].
      * rewrite AS. cbn [fst snd]. lia.
      * specialize (i_bound0 x Hx Ho). lia.
    + intros u v Hu Hv N Ho1 Ho2. apply OUT in Ho1, Ho2.
      destruct Ho1 as [->|Ho1], Ho2 as [->|Ho2]; try congruence.
      * right. rewrite AS. cbn [fst snd]. now apply i_bound0.
      * left. rewrite AS. cbn [fst snd]. now apply i_bound0.
      * now apply i_disj0.
    + intros p Hp HO. destruct (Nat.lt_ge_cases p (index s)) as [L|L].
      * apply i_done0; [exact L|]. intros x Hx Ho. apply HO; [exact Hx|]. apply OUT'. now right.
      * exfalso. apply (HO w Hw); [apply OUT'; now left|]. rewrite AS. cbn [fst snd]. lia.
    + intros p Hp. apply i_todo0. lia.
    + rewrite <- i_calls0. apply Permutation_app_head.
      destruct (flat_set (@inflight T) (wk s) ws w (posted (wk s w) (PArray l)) ws_nodup Hw) as (rest & P1 & P2).
      rewrite P1, P2. rewrite posted_inflight. cbn [arr].
      assert (SK : skipn (index s) t0 = l ++ skipn (future s) t0).
      { unfold l, slice. rewrite <- (firstn_skipn k (skipn (index s) t0)) at 1. f_equal.
        apply nth_error_ext. intros p. rewrite !skipn_nth_error. f_equal. lia. }
      rewrite SK. rewrite <- !app_assoc.
      rewrite (app_assoc (inflight (wk s w)) rest (l ++ _)).
      rewrite (app_assoc (inflight (wk s w)) rest (skipn _ _ ++ _)).
      apply Permutation_app_swap_app.
  - unfold measure. fields. rewrite EP. cbn [mm].
    pose proof (sumw_set (@wm T) (wk s) ws w (posted (wk s w) (PArray l)) ws_nodup Hw) as E.
    rewrite posted_wm in E. cbn [load] in E. rewrite LS in E. lia.
Qed.

Lemma free_step tables s l : Inv tables s -> pc s = MFree l -> Good tables s (step s LMaster).
Proof.
  intros (t0 & done & bz & n & I) EP. cbn [MpiModel.step]. unfold master_step. rewrite EP.
  pose proof (i_pc _ _ _ _ _ _ I) as HP. unfold at_pc in HP. rewrite EP in HP. destruct HP as (HI & HL & HB).
  destruct l as [|w l].
  - split.
    + exists t0, done, bz, n. apply (move_inv tables s); auto; fields; rewrite ?EP; auto; try discriminate.
      * intros x Hx. unfold out. fields. now rewrite EP.
      * intros x Hx. pose proof (i_wk _ _ _ _ _ _ I x Hx) as S0. unfold sit in *. fields.
        rewrite EP in S0. exact S0.
    + unfold measure. fields. rewrite EP. cbn [mm length]. lia.
  - destruct (HB w (or_introl eq_refl)) as (Hw & Bw). split.
    + exists t0, done, bz, n. apply (move_inv tables s); auto; fields; rewrite ?EP; auto; try discriminate.
      * apply (order_calls s w Finish Hw).
      * intros x Hx. apply (order_else s w Finish x Hw Hx).
      * intros x Hx. unfold out. fields. now rewrite EP.
      * intros x Hx. pose proof (i_wk _ _ _ _ _ _ I x Hx) as S0. unfold sit, normal in *. fields.
        rewrite EP in S0. destruct (Z.eq_dec x w) as [->|N].
        { rewrite set_fn_eq, Bw in *. now apply idle_finish. }
        { rewrite set_fn_neq by exact N. exact S0. }
      * unfold at_pc. fields. cbn [length] in HL. repeat split; try assumption; try lia.
        { apply HB; now right. }
        { apply HB; now right. }
    + unfold measure. pose proof (order_measure s w Finish Hw) as E. fields. rewrite EP. cbn [mm length]. lia.
Qed.

Lemma drain_step tables s : Inv tables s -> pc s = MDrain ->
  match step s LMaster with
  | Blocked => True
  | o => Good tables s o
  end.
Proof.
  intros (t0 & done & bz & n & I) EP. cbn [MpiModel.step]. unfold master_step. rewrite EP.
  pose proof (i_pc _ _ _ _ _ _ I) as HP. unfold at_pc in HP. rewrite EP in HP.
  destruct I. rewrite EP in *.
  rewrite (c_avail C _ _ _ i_R0), i_total0 by discriminate.
  destruct (Z.eqb_spec (Z.of_nat (length (filter (fun w => negb (bz w)) ws))) (Z.of_nat (length ws))) as [E|E].
  - assert (BZ : forall w, In w ws -> bz w = false) by (apply nobody_busy; lia).
    split.
    + exists t0, (done ++ [t0]), bz, n.
      constructor; fields; try assumption; try discriminate.
      * intros _. congruence.
      * rewrite i_tables0. cbn [active app]. now rewrite <- app_assoc.
      * rewrite i_results0, map_app. f_equal. cbn [map]. f_equal.
        apply nth_error_ext. intros p. rewrite nth_error_map'.
        destruct (Nat.lt_ge_cases p (index s)) as [L|L].
        { apply i_done0; [exact L|]. intros w Hw Ho. unfold out in Ho. rewrite BZ in Ho by exact Hw. discriminate. }
        { rewrite (proj2 (nth_error_None (table s) p)) by lia.
          rewrite (proj2 (nth_error_None t0 p)) by lia. reflexivity. }
      * congruence.
      * intros _. exact BZ.
      * exact Logic.I.
      * intros w Hw. specialize (i_wk0 w Hw). unfold sit in *. fields. rewrite EP in i_wk0. exact i_wk0.
      * intros w Hw Ho. unfold out in Ho. rewrite BZ in Ho by exact Hw. discriminate.
      * intros v w Hv Hw N Ho. unfold out in Ho. rewrite BZ in Ho by exact Hv. discriminate.
      * intros p Hp HO. apply i_done0; [exact Hp|]. intros w Hw Ho. unfold out in Ho.
        rewrite BZ in Ho by exact Hw. discriminate.
    + unfold measure. fields. rewrite EP. cbn [mm]. lia.
  - exact Logic.I.
Qed.

Lemma last_step tables s w : Inv tables s -> pc s = MLast w -> Good tables s (step s LMaster).
Proof.
  intros (t0 & done & bz & n & I) EP. cbn [MpiModel.step]. unfold master_step. rewrite EP.
  pose proof (i_pc _ _ _ _ _ _ I) as HP. unfold at_pc in HP. rewrite EP in HP. destruct HP as (HI & Hw & Bw).
  destruct (c_confirm C _ _ _ w (i_R _ _ _ _ _ _ I) Hw Bw) as (a' & E & R'). rewrite E. cbn [of_res].
  split.
  - exists t0, done, (set_fn bz w false), n. destruct I. rewrite EP in *.
    assert (OUT : forall x, out (goto (set_alg (order s w Finish) a') MDrain) (set_fn bz w false) x
                            = out s bz x).
    { intros x. unfold out. fields. rewrite EP. cbn [special]. destruct (Z.eq_dec x w) as [->|N].
      - rewrite Z.eqb_refl, set_fn_eq. now rewrite andb_false_r.
      - rewrite set_fn_neq by exact N. now rewrite (eqb_neq w x) by congruence. }
    constructor; try (fields; assumption); try discriminate.
    + fields. intros _. apply i_total0. discriminate.
    + intros x Hx. specialize (i_wk0 x Hx). unfold sit, normal in *. fields. rewrite EP in i_wk0.
      destruct (Z.eq_dec x w) as [->|N].
      * rewrite Z.eqb_refl in *. rewrite !set_fn_eq. now apply idle_finish.
      * rewrite (eqb_neq w x) in * by congruence. rewrite !set_fn_neq by exact N. exact i_wk0.
    + intros x Hx. fields. rewrite set_fn_neq; [now apply i_else0|]. intros ->; contradiction.
    + intros x Hx Ho. rewrite OUT in Ho. now apply i_bound0.
    + intros u v Hu Hv N Ho1 Ho2. rewrite OUT in Ho1, Ho2. now apply i_disj0.
    + intros p Hp HO. apply i_done0; [exact Hp|]. intros x Hx Ho. apply HO; [exact Hx|].
      now rewrite OUT.
    + pose proof (order_calls s w Finish Hw) as P. fields. rewrite P. exact i_calls0.
  - unfold measure. pose proof (order_measure s w Finish Hw) as E'. fields. rewrite EP. cbn [mm]. lia.
Qed.

Lemma empty_step tables s l : Inv tables s -> pc s = MEmpty l -> Good tables s (step s LMaster).
Proof.
  intros (t0 & done & bz & n & I) EP. cbn [MpiModel.step]. unfold master_step. rewrite EP.
  pose proof (i_pc _ _ _ _ _ _ I) as HP. unfold at_pc in HP. rewrite EP in HP. destruct HP as (HL & HL2 & HT).
  assert (BZ : forall w, In w ws -> bz w = false).
  { apply (i_quiet _ _ _ _ _ _ I). now rewrite EP. }
  destruct l as [|w l].
  - assert (TT : total s = Z.of_nat (length ws)) by (apply (i_total _ _ _ _ _ _ I); rewrite EP; discriminate).
    rewrite (c_avail C _ _ _ (i_R _ _ _ _ _ _ I)), (all_idle bz BZ), TT, Z.eqb_refl.
    destruct (c_idles C _ _ _ (i_R _ _ _ _ _ _ I)) as (l & El & P). rewrite El. cbn [of_res].
    destruct (idles_length bz l P) as (L1 & L2 & L3). split.
    + exists t0, done, bz, n. apply (move_inv tables s); auto; fields; rewrite ?EP; auto; try discriminate.
      * intros x Hx. unfold out. fields. now rewrite EP.
      * intros x Hx. pose proof (i_wk _ _ _ _ _ _ I x Hx) as S0. unfold sit, normal in *. fields.
        rewrite EP, BZ in S0 by exact Hx.
        destruct (in_dec Z.eq_dec x l) as [|NI]; [exact S0|]. exfalso. apply NI.
        apply (Permutation_in _ (Permutation_sym P)). now rewrite (all_idle bz BZ).
      * unfold at_pc. fields. repeat split; auto. intros x Hx. now apply L3.
    + unfold measure. fields. rewrite EP. cbn [mm length]. lia.
  - assert (Hw : In w ws) by (apply HL; now left). split.
    + exists t0, done, bz, n. apply (move_inv tables s); auto; fields; rewrite ?EP; auto; try discriminate.
      * apply (order_calls s w Finish Hw).
      * intros x Hx. apply (order_else s w Finish x Hw Hx).
      * intros x Hx. unfold out. fields. now rewrite EP.
      * intros x Hx. pose proof (i_wk _ _ _ _ _ _ I x Hx) as S0. unfold sit, normal in *. fields.
        rewrite EP in S0. rewrite BZ in * by exact Hx. destruct (Z.eq_dec x w) as [->|N].
        { rewrite set_fn_eq. now apply idle_finish. }
        { rewrite set_fn_neq by exact N. exact S0. }
      * unfold at_pc. fields. cbn [length] in HL2. split; [|split; [lia|exact HT]].
        intros x Hx. apply HL. now right.
    + unfold measure. pose proof (order_measure s w Finish Hw) as E. fields. rewrite EP. cbn [mm length]. lia.
Qed.

Lemma kill_step tables s l : Inv tables s -> pc s = MKill l -> Good tables s (step s LMaster).
Proof.
  intros (t0 & done & bz & n & I) EP. cbn [MpiModel.step]. unfold master_step. rewrite EP.
  pose proof (i_pc _ _ _ _ _ _ I) as HP. unfold at_pc in HP. rewrite EP in HP. destruct HP as (HL & ND & HT).
  destruct l as [|w l].
  - split.
    + exists t0, done, bz, n. apply (move_inv tables s); auto; fields; rewrite ?EP; auto; try discriminate.
      * intros x Hx. unfold out. fields. now rewrite EP.
      * intros x Hx. pose proof (i_wk _ _ _ _ _ _ I x Hx) as S0. unfold sit in *. fields.
        rewrite EP in S0. exact S0.
    + unfold measure. fields. rewrite EP. cbn [mm length]. lia.
  - assert (Hw : In w ws) by (apply HL; now left). inversion ND as [|? ? NI ND']; subst. split.
    + exists t0, done, bz, n. apply (move_inv tables s); auto; fields; rewrite ?EP; auto; try discriminate.
      * apply (order_calls s w Kill Hw).
      * intros x Hx. apply (order_else s w Kill x Hw Hx).
      * intros x Hx. unfold out. fields. now rewrite EP.
      * intros x Hx. pose proof (i_wk _ _ _ _ _ _ I x Hx) as S0. unfold sit in *. fields.
        rewrite EP in S0. destruct (Z.eq_dec x w) as [->|N].
        { rewrite set_fn_eq. destruct (in_dec Z.eq_dec w l) as [H|H]; [contradiction|].
          destruct (in_dec Z.eq_dec w (w :: l)) as [H'|H']; [now apply idle_kill|].
          exfalso. apply H'. now left. }
        { rewrite set_fn_neq by exact N.
          destruct (in_dec Z.eq_dec x l) as [H|H], (in_dec Z.eq_dec x (w :: l)) as [H'|H']; try exact S0.
          - exfalso. apply H'. now right.
          - exfalso. destruct H' as [H'|H']; [congruence|contradiction]. }
      * unfold at_pc. fields. split; [|split; [exact ND'|exact HT]].
        intros x Hx. apply HL. now right.
    + unfold measure. pose proof (order_measure s w Kill Hw) as E. fields. rewrite EP. cbn [mm length]. lia.
Qed.

Lemma master_inv tables s : Inv tables s ->
  match step s LMaster with
  | Blocked => pc s = MWait \/ pc s = MEnd \/
      (pc s = MDrain /\ a_avail (alg s) <> total s)
  | o => Good tables s o
  end.
Proof.
  intros I. destruct (pc s) eqn:EP.
  - pose proof (next_step tables s I EP) as H. destruct (step s LMaster); [destruct H|exact H|exact H].
  - pose proof (loop_step tables s I EP) as H. destruct (step s LMaster); [destruct H|exact H|exact H].
  - cbn [MpiModel.step]. unfold master_step. rewrite EP. now left.
  - pose proof (order_step tables s w I EP) as H. destruct (step s LMaster); [destruct H|exact H|exact H].
  - pose proof (size_step tables s w I EP) as H. destruct (step s LMaster); [destruct H|exact H|exact H].
  - pose proof (data_step tables s w I EP) as H. destruct (step s LMaster); [destruct H|exact H|exact H].
  - pose proof (free_step tables s l I EP) as H. destruct (step s LMaster); [destruct H|exact H|exact H].
  - pose proof (drain_step tables s I EP) as H. destruct (step s LMaster) eqn:ES; [|exact H|exact H].
    right; right. split; [reflexivity|]. cbn [MpiModel.step] in ES. unfold master_step in ES. rewrite EP in ES.
    destruct (Z.eqb_spec (a_avail (alg s)) (total s)); [discriminate|assumption].
  - pose proof (last_step tables s w I EP) as H. destruct (step s LMaster); [destruct H|exact H|exact H].
  - pose proof (empty_step tables s l I EP) as H. destruct (step s LMaster); [destruct H|exact H|exact H].
  - pose proof (kill_step tables s l I EP) as H. destruct (step s LMaster); [destruct H|exact H|exact H].
  - cbn [MpiModel.step]. unfold master_step. rewrite EP. auto.
Qed.

(** ** The answers *)

(** The table after the answer of worker [w], who has nothing left to do. *)
Definition store (s : world) (w : Z) (rest : list (list T)) (t : list T) : world :=
  mkWorld (pc s) (alg s) (total s) t (index s) (assigned s) (todo s) (results s)
          (set_fn (wk s) w (taken (wk s w) rest)) (calls s).

Lemma answer_from tables s t0 done bz n w l rest :
  inv tables s t0 done bz n -> answers (wk s w) = l :: rest ->
  special (pc s) w = false -> active (pc s) = true -> pc s <> MNext ->
  In w ws /\ bz w = true /\
  exists t, handle s w l = Ok t /\ length t = length (table s) /\
    is_idle (taken (wk s w) rest) /\
    (wm (wk s w) = wm (taken (wk s w) rest) + 3)%nat /\
    inflight (wk s w) = inflight (taken (wk s w) rest) /\
    (forall p, (p < index s)%nat ->
      (forall x, In x ws -> out s bz x = true -> x <> w ->
         ~ (fst (assigned s x) <= p < fst (assigned s x) + snd (assigned s x))%nat) ->
      nth_error t p = option_map f (nth_error t0 p)) /\
    (forall p, (index s <= p)%nat -> nth_error t p = nth_error t0 p).
Proof.
  intros I HA SP AC NN. destruct I.
  destruct (in_dec Z.eq_dec w ws) as [Hw|Hw].
  2:{ rewrite (i_else0 w Hw) in HA. discriminate. }
  pose proof (i_wk0 w Hw) as S0.
  assert (NO : normal s t0 bz w (wk s w)).
  { unfold sit in S0. destruct (pc s); cbn [special active] in *; try discriminate;
      try exact S0; rewrite SP in S0; exact S0. }
  unfold normal in NO. destruct (bz w) eqn:B.
  2:{ destruct NO as (_ & _ & _ & AN). rewrite AN in HA. discriminate. }
  split; [exact Hw|]. split; [reflexivity|].
  destruct (working_answer f _ _ _ _ NO HA) as (EL & ER & ID & IF & WM). subst l rest.
  assert (Ho : out s bz w = true) by (rewrite out_nonspecial by exact SP; exact B).
  pose proof (i_bound0 w Hw Ho) as BD.
  unfold handle. destruct (assigned s w) as [i m] eqn:AS. cbn [fst snd] in *.
  assert (LL : length (map f (slice t0 i m)) = m) by (rewrite map_length, slice_length; lia).
  destruct (write_back (table s) i m (map f (slice t0 i m))) as [t| | |] eqn:EW;
    try (unfold write_back in EW; rewrite LL, Nat.leb_refl, (proj2 (Nat.leb_le (i + m) (length (table s)))) in EW by lia; discriminate).
  destruct (write_nth _ _ _ _ _ EW) as (L & NT).
  exists t. split; [reflexivity|]. split; [exact L|]. split; [exact ID|]. split; [exact WM|].
  split; [exact IF|]. split.
  - intros p Hp HO. rewrite NT. destruct ((i <=? p)%nat && (p <? i + m)%nat) eqn:EC.
    + apply andb_prop in EC as [E1 E2]. apply Nat.leb_le in E1. apply Nat.ltb_lt in E2.
      rewrite nth_error_map', slice_nth by lia. do 2 f_equal. lia.
    + apply i_done0; [exact Hp|]. intros x Hx Hox. destruct (Z.eq_dec x w) as [->|N].
      * rewrite AS. cbn [fst snd]. intros [H1 H2].
        rewrite (proj2 (Nat.leb_le i p)), (proj2 (Nat.ltb_lt p (i + m))) in EC by lia. discriminate.
      * now apply HO.
  - intros p Hp. rewrite NT. destruct ((i <=? p)%nat && (p <? i + m)%nat) eqn:EC.
    + apply andb_prop in EC as [E1 E2]. apply Nat.ltb_lt in E2. lia.
    + now apply i_todo0.
Qed.

Lemma answer_inv tables s w : Inv tables s ->
  match step s (LAnswer w) with
  | Blocked => answers (wk s w) = [] \/ (pc s <> MWait /\ (pc s = MDrain -> a_avail (alg s) = total s))
  | o => Good tables s o
  end.
Proof.
  intros (t0 & done & bz & n & I). cbn [MpiModel.step]. unfold answer_step.
  destruct (answers (wk s w)) as [|l rest] eqn:HA; [now left|].
  destruct (pc s) eqn:EP; try (right; split; [discriminate|intros; discriminate]).
  - (* MWait *)
    pose proof (i_pc _ _ _ _ _ _ I) as HP. unfold at_pc in HP. rewrite EP in HP. destruct HP as (HI & _).
    destruct (answer_from tables s t0 done bz n w l rest I HA) as
      (Hw & Bw & t & EH & LT & ID & WM & IF & HD & HT); try (rewrite EP; auto; discriminate).
    rewrite EH. cbn [of_res].
    destruct (c_confirm C _ _ _ w (i_R _ _ _ _ _ _ I) Hw Bw) as (a' & E & R'). rewrite E. cbn [of_res].
    match goal with |- match MpiModel.ask _ ?x with _ => _ end => set (s1 := x) end.
    set (s2 := goto s1 MLoop).
    assert (EA : ask s1 = ask s2) by reflexivity. rewrite EA.
    assert (OUT : forall x, out s2 (set_fn bz w false) x = true <-> (x <> w /\ out s bz x = true)).
    { intros x. unfold out, s2, s1. fields. rewrite EP. cbn [special negb]. rewrite !andb_true_r.
      destruct (Z.eq_dec x w) as [->|N].
      - rewrite set_fn_eq. split; [discriminate|]. intros [H _]; congruence.
      - rewrite set_fn_neq by exact N. tauto. }
    assert (I2 : inv tables s2 t0 done (set_fn bz w false) n).
    { destruct I. rewrite EP in *. constructor; try (unfold s2, s1; fields; assumption); try discriminate.
      - unfold s2, s1. fields. congruence.
      - unfold s2, s1. fields. intros _. apply i_total0. discriminate.
      - exact Logic.I.
      - intros x Hx. specialize (i_wk0 x Hx). unfold sit, normal in *. unfold s2, s1. fields. rewrite EP in i_wk0.
        destruct (Z.eq_dec x w) as [->|N].
        + rewrite !set_fn_eq. exact ID.
        + rewrite !set_fn_neq by exact N. exact i_wk0.
      - intros x Hx. unfold s2, s1. fields. rewrite set_fn_neq; [now apply i_else0|]. intros ->; contradiction.
      - intros x Hx Ho. apply OUT in Ho as [_ Ho]. now apply i_bound0.
      - intros u v Hu Hv N Ho1 Ho2. apply OUT in Ho1 as [_ Ho1]. apply OUT in Ho2 as [_ Ho2]. now apply i_disj0.
      - intros p Hp HO. apply HD; [exact Hp|]. intros x Hx Ho N. apply HO; [exact Hx|]. apply OUT. auto.
      - unfold s2, s1. fields. rewrite <- i_calls0. apply Permutation_app_head. apply Permutation_app_tail.
        destruct (flat_set (@inflight T) (wk s) ws w (taken (wk s w) rest) ws_nodup Hw) as (q & P1 & P2).
        fold (taken (wk s w) rest). rewrite P1, P2, IF. apply Permutation_refl. }
    assert (HI2 : (index s2 < length (table s2))%nat) by (unfold s2, s1; fields; lia).
    pose proof (ask_inv tables s2 t0 done _ n I2 eq_refl HI2) as G.
    destruct (ask s2) as [| |s3]; try contradiction. destruct G as (G1 & G2). split; [exact G1|].
    assert (M : (measure s2 < measure s)%nat).
    { unfold measure, s2, s1. fields. rewrite EP. cbn [mm].
      fold (taken (wk s w) rest).
      pose proof (sumw_set (@wm T) (wk s) ws w (taken (wk s w) rest) ws_nodup Hw) as E3. lia. }
    lia.
  - (* MDrain *)
    destruct (Z.eqb_spec (a_avail (alg s)) (total s)) as [EQ|NE].
    { right. split; [discriminate|auto]. }
    pose proof (i_pc _ _ _ _ _ _ I) as HP. unfold at_pc in HP. rewrite EP in HP.
    destruct (answer_from tables s t0 done bz n w l rest I HA) as
      (Hw & Bw & t & EH & LT & ID & WM & IF & HD & HT); try (rewrite EP; auto; discriminate).
    rewrite EH. cbn [of_res].
    match goal with |- Inv tables ?x /\ _ => set (s2 := x) end.
    assert (OUT : forall x, out s2 bz x = true <-> (x <> w /\ out s bz x = true)).
    { intros x. unfold out, s2. fields. rewrite EP. cbn [special negb]. rewrite !andb_true_r.
      destruct (Z.eq_dec x w) as [->|N].
      - rewrite Z.eqb_refl, andb_false_r. split; [discriminate|]. intros [H _]; congruence.
      - rewrite (eqb_neq w x), andb_true_r by congruence. tauto. }
    split.
    + exists t0, done, bz, n. destruct I. rewrite EP in *.
      constructor; try (unfold s2; fields; assumption); try discriminate.
      * unfold s2. fields. congruence.
      * unfold s2. fields. intros _. apply i_total0. discriminate.
      * unfold at_pc, s2. fields. rewrite LT. auto.
      * intros x Hx. specialize (i_wk0 x Hx). unfold sit, normal in *. unfold s2. fields. rewrite EP in i_wk0.
        destruct (Z.eq_dec x w) as [->|N].
        { rewrite Z.eqb_refl, !set_fn_eq. exact ID. }
        { rewrite (eqb_neq w x) by congruence. rewrite !set_fn_neq by exact N. exact i_wk0. }
      * intros x Hx. unfold s2. fields. rewrite set_fn_neq; [now apply i_else0|]. intros ->; contradiction.
      * intros x Hx Ho. apply OUT in Ho as [_ Ho]. now apply i_bound0.
      * intros u v Hu Hv N Ho1 Ho2. apply OUT in Ho1 as [_ Ho1]. apply OUT in Ho2 as [_ Ho2]. now apply i_disj0.
      * intros p Hp HO. apply HD; [exact Hp|]. intros x Hx Ho N. apply HO; [exact Hx|]. apply OUT. auto.
      * unfold s2. fields. rewrite <- i_calls0. apply Permutation_app_head. apply Permutation_app_tail.
        destruct (flat_set (@inflight T) (wk s) ws w (taken (wk s w) rest) ws_nodup Hw) as (q & P1 & P2).
        fold (taken (wk s w) rest). rewrite P1, P2, IF. apply Permutation_refl.
    + unfold measure, s2. fields. rewrite EP. cbn [mm].
      fold (taken (wk s w) rest).
      pose proof (sumw_set (@wm T) (wk s) ws w (taken (wk s w) rest) ws_nodup Hw) as E3. lia.
Qed.

(** ** Runs *)

Lemma step_inv tables s l : Inv tables s ->
  match step s l with
  | Blocked => True
  | Bad => False
  | Next s' => Inv tables s' /\ (measure s' < measure s)%nat
  end.
Proof.
  intros I. destruct l as [|w|w].
  - pose proof (master_inv tables s I) as H. destruct (step s LMaster); [exact Logic.I|exact H|exact H].
  - pose proof (answer_inv tables s w I) as H. destruct (step s (LAnswer w)); [exact Logic.I|exact H|exact H].
  - exact (worker_inv tables s w I).
Qed.

(** A run: a schedule that is never blocked. *)
Inductive run : world -> list label -> world -> Prop :=
| run_nil s : run s [] s
| run_cons s l s1 ls s2 : step s l = Next s1 -> run s1 ls s2 -> run s (l :: ls) s2.

Lemma run_inv tables s ls s' : Inv tables s -> run s ls s' ->
  Inv tables s' /\ (length ls + measure s' <= measure s)%nat.
Proof.
  intros I H. induction H as [s|s l s1 ls s2 E H IH]; [split; [exact I|cbn; lia]|].
  pose proof (step_inv tables s l I) as G. rewrite E in G. destruct G as (I1 & M).
  destruct (IH I1) as (I2 & M2). split; [exact I2|]. cbn [length]. lia.
Qed.

(** The start satisfies the invariant. *)
Lemma start_inv tables a n :
  R a (fun _ => false) n ->
  (list_sum (map (fun t => packets packet (length t)) tables) <= n)%nat ->
  Inv tables (start a tables).
Proof.
  intros HR HN. exists [], [], (fun _ => false), n.
  constructor; unfold start; fields; auto; try discriminate; try contradiction.
  - unfold needed. fields. cbn [length sending]. rewrite packets_0 by exact packet_pos. lia.
  - exact Logic.I.
  - intros w Hw. unfold sit, normal. fields. repeat split; auto. constructor.
  - intros p Hp. lia.
  - cbn [skipn app concat]. assert (E : flat_map (fun _ : Z => @inflight T (mkWorker WOrder [] [] [])) ws = []).
    { clear. induction ws; [reflexivity|]. cbn. exact IHl. }
    rewrite E. apply Permutation_refl.
Qed.

(** Somebody can always move until the end; a process that is in the middle of
    a synchronous send does not count. *)
Definition sent_pending (s : world) (l : label) : Prop :=
  match l with
  | LMaster | LAnswer _ => exists w, In w ws /\ (orders (wk s w) <> [] \/ tasks (wk s w) <> [])
  | LWorker w => answers (wk s w) <> []
  end.

Definition finished (s : world) : Prop :=
  pc s = MEnd /\ forall w, In w ws -> at_ (wk s w) = WLeft.

Lemma moves_or_quiet s t0 bz w k : sit s t0 bz w k -> 
  orders k <> [] \/ tasks k <> [] -> 
  answers k = [] /\ exists k' xs, local f k = WNext k' xs.
Proof.
  intros H HQ. destruct (sit_cases s t0 bz w k H) as [H1|[H1|[(n & H1)|[(l & H1)|H1]]]].
  - split; [apply H1|]. apply idle_moves; [exact H1|]. destruct HQ as [HQ|HQ]; [exact HQ|].
    exfalso. apply HQ. apply H1.
  - destruct H1 as (HC & TK & AN). split; [exact AN|]. apply called_moves; [exact HC|]. right.
    destruct HQ as [HQ|HQ]; [|congruence]. destruct HC as [(E & _)|(_ & E)]; [exact E|congruence].
  - destruct H1 as (AN & [(HC & TK)|(E & O & TK)]).
    + split; [exact AN|]. apply called_moves; [exact HC|]. left. eauto.
    + destruct HQ; congruence.
  - destruct H1 as [AN HC TK|AN E O TK|a b AN EL E O TK|E O TK AN].
    + split; [exact AN|]. apply called_moves; [exact HC|]. left. eauto.
    + split; [exact AN|]. unfold local. rewrite E, TK, Nat.leb_refl. eauto.
    + destruct HQ; congruence.
    + destruct HQ; congruence.
  - split; [apply H1|]. apply gone_moves; [exact H1|]. intros EL.
    destruct H1 as (TK & AN & [(E & _)|(E & O)]); [congruence|]. destruct HQ; congruence.
Qed.

Lemma queue_dec (k : worker T) : (orders k = [] /\ tasks k = []) \/ (orders k <> [] \/ tasks k <> []).
Proof. destruct (orders k), (tasks k); auto; right; [right|left|left]; discriminate. Qed.

Lemma all_or_one (P : Z -> Prop) l : (forall w, P w \/ ~ P w) ->
  (forall w, In w l -> P w) \/ exists w, In w l /\ ~ P w.
Proof.
  intros D. induction l as [|x l [IH|(w & Hw & NP)]].
  - left. intros w [].
  - destruct (D x) as [H|H].
    + left. intros w [<-|Hw]; auto.
    + right. exists x. split; [now left|exact H].
  - right. exists w. split; [now right|exact NP].
Qed.

Lemma progress tables s : Inv tables s -> ~ finished s ->
  exists l s', step s l = Next s' /\ ~ sent_pending s l.
Proof.
  intros HI NF. pose proof HI as (t0 & done & bz & n & I).
  (* either some worker has a message waiting *)
  destruct (all_or_one (fun w => orders (wk s w) = [] /\ tasks (wk s w) = []) ws) as [Q|(w & Hw & NQ)].
  { intros w. destruct (queue_dec (wk s w)) as [H|H]; [now left|right]. intros [E1 E2]. destruct H; congruence. }
  2:{ destruct (queue_dec (wk s w)) as [H|H]; [contradiction|].
      destruct (moves_or_quiet s t0 bz w _ (i_wk _ _ _ _ _ _ I w Hw) H) as (AN & k' & xs & EL).
      exists (LWorker w). eexists. split.
      - cbn [MpiModel.step]. rewrite worker_step_local, EL. reflexivity.
      - cbn [sent_pending]. rewrite AN. congruence. }
  assert (NM : ~ sent_pending s LMaster).
  { intros (w & Hw & H). destruct (Q w Hw). destruct H; congruence. }
  (* or the master can move *)
  pose proof (master_inv tables s HI) as G. destruct (step s LMaster) as [| |s'] eqn:ES; [|contradiction|].
  2:{ exists LMaster, s'. auto. }
  (* or it waits for the answer of somebody who is busy *)
  assert (BU : forall w, In w ws -> bz w = true -> pc s = MWait \/ (pc s = MDrain /\ a_avail (alg s) <> total s) ->
            exists l s', step s l = Next s' /\ ~ sent_pending s l).
  { intros w Hw Bw HP.
    assert (W : exists l, working f l (wk s w)).
    { pose proof (i_wk _ _ _ _ _ _ I w Hw) as S0. unfold sit, normal in S0.
      destruct HP as [HP|[HP _]]; rewrite HP, Bw in S0; eauto. }
    destruct W as (l & W). destruct (answers (wk s w)) as [|x rest] eqn:HA.
    - destruct (working_moves f l _ W HA) as (k' & xs & EL).
      exists (LWorker w). eexists. split.
      + cbn [MpiModel.step]. rewrite worker_step_local, EL. reflexivity.
      + cbn [sent_pending]. rewrite HA. congruence.
    - pose proof (answer_inv tables s w HI) as GA.
      destruct (step s (LAnswer w)) as [| |s'] eqn:EA; [|contradiction|].
      + rewrite HA in GA. destruct GA as [GA|[GA1 GA2]]; [discriminate|].
        destruct HP as [HP|[HP HP2]]; [contradiction|]. specialize (GA2 HP). contradiction.
      + exists (LAnswer w), s'. split; [exact EA|exact NM]. }
  destruct G as [EP|[EP|[EP NE]]].
  - pose proof (i_pc _ _ _ _ _ _ I) as HP. unfold at_pc in HP. rewrite EP in HP.
    destruct HP as (_ & w & Hw & Bw). apply (BU w Hw Bw). now left.
  - destruct (all_or_one (fun w => at_ (wk s w) = WLeft) ws) as [L|(w & Hw & NL)].
    { intros w. destruct (at_ (wk s w)); auto; right; discriminate. }
    + exfalso. apply NF. split; [exact EP|exact L].
    + pose proof (i_wk _ _ _ _ _ _ I w Hw) as S0. unfold sit in S0. rewrite EP in S0.
      destruct (gone_moves f _ S0 NL) as (k' & xs & EL).
      exists (LWorker w). eexists. split.
      * cbn [MpiModel.step]. rewrite worker_step_local, EL. reflexivity.
      * cbn [sent_pending]. destruct S0 as (_ & AN & _). rewrite AN. congruence.
  - rewrite (c_avail C _ _ _ (i_R _ _ _ _ _ _ I)) in NE.
    rewrite (i_total _ _ _ _ _ _ I) in NE by (rewrite EP; discriminate).
    destruct (someone_busy bz) as (w & Hw & Bw); [lia|]. apply (BU w Hw Bw). right.
    split; [exact EP|]. rewrite (c_avail C _ _ _ (i_R _ _ _ _ _ _ I)).
    rewrite (i_total _ _ _ _ _ _ I) by (rewrite EP; discriminate). exact NE.
Qed.

(** The end. *)
Lemma finished_spec tables s : Inv tables s -> finished s ->
  results s = map (map f) tables /\ Permutation (calls s) (concat tables) /\
  (forall w, wk s w = mkWorker (if in_dec Z.eq_dec w ws then WLeft else WOrder) [] [] []) /\
  exists bz n, R (alg s) bz n /\ forall w, In w ws -> bz w = false.
Proof.
  intros (t0 & done & bz & n & I) (EP & EL). destruct I. rewrite EP in *.
  unfold at_pc in i_pc0. rewrite EP in i_pc0. cbn [active] in *.
  assert (GO : forall w, In w ws -> wk s w = mkWorker WLeft [] [] []).
  { intros w Hw. specialize (i_wk0 w Hw). unfold sit in i_wk0. rewrite EP in i_wk0.
    destruct i_wk0 as (TK & AN & [(E & _)|(E & O)]).
    - rewrite (EL w Hw) in E. discriminate.
    - destruct (wk s w). cbn in *. congruence. }
  split; [|split; [|split]].
  - rewrite i_results0, i_tables0, i_pc0. cbn. now rewrite app_nil_r.
  - rewrite <- i_calls0, i_pc0, (i_end0 eq_refl), skipn_all. cbn [concat]. rewrite !app_nil_r.
    assert (E : flat_map (fun w => inflight (wk s w)) ws = []).
    { rewrite (flat_map_ext_in _ (fun _ => []) ws).
      - clear. induction ws; [reflexivity|]. exact IHl.
      - intros w Hw. now rewrite GO. }
    rewrite E. now rewrite app_nil_r.
  - intros w. destruct (in_dec Z.eq_dec w ws) as [Hw|Hw]; [now apply GO|now apply i_else0].
  - exists bz, n. auto.
Qed.

(** Nobody ever has two tasks. *)
Lemma one_task_each tables s w : Inv tables s ->
  (arrays (wk s w) <= 1)%nat /\ (continues (wk s w) <= 1)%nat.
Proof.
  intros (t0 & done & bz & n & I). destruct (in_dec Z.eq_dec w ws) as [Hw|Hw].
  - apply (one_task f). eapply sit_cases. exact (i_wk _ _ _ _ _ _ I w Hw).
  - rewrite (i_else _ _ _ _ _ _ I w Hw). cbn. lia.
Qed.

End Apply.
