From Coq Require Import ZArith QArith Qround Qabs List Bool Arith Lia Lqa.
From Verif Require Import Lib Outcome BoundsModel BoundsProofs RealModel RealSpec RealProofs StatSpec StatProofs.
From Verif Require Import BreedModel AlgoSpec EdoModel EdoSpec EdoProofs.
From Coq Require Import List.
Import ListNotations.
Open Scope Q_scope.

(** ** dispatcher *)
Lemma nth_some {A} (v : list A) i d : (i < length v)%nat -> nth_error v i = Some (nth i v d).
Proof. revert i. induction v; intros [|i] H; cbn in *; try lia; [reflexivity|]. apply IHv. lia. Qed.
Lemma gather_ok v idx : (forall j, In j idx -> (j < length v)%nat) -> gather v idx = Ok (map (fun j => nth j v 0) idx).
Proof.
  induction idx as [|j idx IH]; intros H; cbn; [reflexivity|]. rewrite (nth_some v j 0) by (apply H; cbn; auto).
  rewrite IH by (intros; apply H; cbn; auto). reflexivity.
Qed.
Lemma gather_throws v idx j : In j idx -> (length v <= j)%nat -> gather v idx = Throw.
Proof.
  induction idx as [|k idx IH]; intros H L; [destruct H|]. cbn. destruct (nth_error v k) as [x|] eqn:E; [|reflexivity].
  destruct H as [->|H]; [apply nth_error_None in L; congruence|]. rewrite IH; auto.
Qed.
Lemma gather_inv v idx part : gather v idx = Ok part -> (forall j, In j idx -> (j < length v)%nat) /\ part = map (fun j => nth j v 0) idx.
Proof.
  intros H. assert (L : forall j, In j idx -> (j < length v)%nat).
  { intros j Hj. destruct (le_lt_dec (length v) j) as [L|L]; [|exact L]. rewrite (gather_throws _ _ _ Hj L) in H. discriminate. }
  split; [exact L|]. rewrite (gather_ok _ _ L) in H. injection H as <-. reflexivity.
Qed.
Lemma nth_set_eq v i x : (i < length v)%nat -> nth i (set v i x) 0 = x.
Proof. intros H. apply nth_error_nth. apply nth_error_set_eq. exact H. Qed.
Lemma nth_set_neq v i x k : k <> i -> nth k (set v i x) 0 = nth k v 0.
Proof.
  intros H. destruct (lt_dec k (length v)) as [L|L].
  - apply nth_error_nth. rewrite nth_error_set_neq by exact H. apply nth_some. exact L.
  - rewrite !nth_overflow; [reflexivity|lia|rewrite set_length; lia].
Qed.
Lemma copy_back_ok : forall idx v part, (forall j, In j idx -> (j < length v)%nat) -> (length idx <= length part)%nat ->
  exists v', copy_back v idx part = Ok v' /\ length v' = length v /\ (forall i, ~ In i idx -> nth i v' 0 = nth i v 0) /\
    (NoDup idx -> forall k, (k < length idx)%nat -> nth (nth k idx 0%nat) v' 0 = nth k part 0) /\
    (forall g, (forall k, (k < length idx)%nat -> nth k part 0 = g (nth k idx 0%nat)) -> forall i, In i idx -> nth i v' 0 = g i).
Proof.
  induction idx as [|j idx IH]; intros v part L P; cbn [copy_back].
  - exists v. split; [reflexivity|]. split; [reflexivity|]. split; [reflexivity|]. split; [cbn; lia|]. intros g _ i [].
  - destruct part as [|x part]; [cbn in P; lia|]. rewrite upd_set by (apply L; cbn; auto). cbn [of_opt rbind].
    destruct (IH (set v j x) part) as (v' & E & Lv & U & ND & C); [intros; rewrite set_length; apply L; cbn; auto|cbn in P; lia|].
    exists v'. split; [exact E|]. rewrite set_length in Lv. split; [exact Lv|]. split; [|split].
    + intros i Hi. rewrite U by (intros K; apply Hi; cbn; auto). apply nth_set_neq. intros ->. apply Hi. cbn. auto.
    + intros N k Hk. apply NoDup_cons_iff in N as [N1 N2]. destruct k as [|k]; cbn [nth].
      * rewrite U by exact N1. apply nth_set_eq. apply L. cbn. auto.
      * apply ND; [exact N2|cbn in Hk; lia].
    + intros g Hg i Hi. destruct (in_dec Nat.eq_dec i idx) as [Hi'|Hi'].
      * apply C; [|exact Hi']. intros k Hk. apply (Hg (S k)). cbn. lia.
      * destruct Hi as [->|Hi]; [|contradiction]. rewrite U by exact Hi'. rewrite nth_set_eq by (apply L; cbn; auto). apply (Hg 0%nat). cbn. lia.
Qed.
Lemma copy_back_inv v idx part v' : copy_back v idx part = Ok v' -> (forall j, In j idx -> (j < length v)%nat) /\ (length idx <= length part)%nat.
Proof.
  revert v part. induction idx as [|j idx IH]; intros v part H; [split; [intros j []|cbn; lia]|]. cbn [copy_back] in H.
  destruct part as [|x part]; [discriminate|]. apply rbind_ok in H as (v1 & H1 & H). apply of_opt_ok in H1. apply upd_some in H1 as (L & ->).
  destruct (IH _ _ H) as (A & B). rewrite set_length in A. split; [|cbn; lia]. intros k [->|Hk]; auto.
Qed.

Section Disp.
Context {F : Type}.
Lemma dispatch_app (p1 p2 : list (list nat * repairer F)) : forall v r, dispatch_loop (p1 ++ p2) v r = (let! (v, r) := dispatch_loop p1 v r in dispatch_loop p2 v r).
Proof.
  induction p1 as [|[idx rep] p1 IH]; intros v r; cbn [app dispatch_loop]; [reflexivity|].
  destruct (gather v idx) as [part| | |]; cbn [rbind]; [|reflexivity..]. destruct part as [|a part]; [apply IH|].
  destruct (rep (Ind (a :: part) None) r) as [[p r1]| | |]; cbn [rbind]; [|reflexivity..].
  destruct (copy_back v idx (geno p)); cbn [rbind]; [apply IH|reflexivity..].
Qed.
Lemma dispatch_local (pairs : list (list nat * repairer F)) : forall v r v' r', dispatch_loop pairs v r = Ok (v', r') ->
  length v' = length v /\ forall i, (forall idx rep, In (idx, rep) pairs -> ~ In i idx) -> nth i v' 0 = nth i v 0.
Proof.
  induction pairs as [|[idx rep] pairs IH]; intros v r v' r' H; cbn [dispatch_loop] in H.
  - injection H as <- <-. auto.
  - apply rbind_ok in H as (part & H1 & H). destruct part as [|a part].
    + destruct (IH _ _ _ _ H) as [L K]. split; [exact L|]. intros i Hi. apply K. intros. eapply Hi. right. eauto.
    + apply rbind_ok in H as ([p r1] & H2 & H). apply rbind_ok in H as (v1 & H3 & H). destruct (IH _ _ _ _ H) as [L K].
      destruct (copy_back_inv _ _ _ _ H3) as [C1 C2]. destruct (copy_back_ok idx v (geno p) C1 C2) as (v2 & E & Lv & U & _).
      assert (v2 = v1) by congruence. subst v2. split; [lia|]. intros i Hi. rewrite K by (intros; eapply Hi; right; eauto).
      apply U. eapply Hi. left. reflexivity.
Qed.
Lemma dispatch_pointwise (pairs : list (list nat * (Q -> Q))) : forall v r,
  (forall idx f, In (idx, f) pairs -> forall j, In j idx -> (j < length v)%nat) ->
  exists v', dispatch_loop (map (fun p => (fst p, @apply_unary F (snd p))) pairs) v r = Ok (v', r) /\ length v' = length v /\
    forall i, (i < length v)%nat -> nth i v' 0 = applied pairs i (nth i v 0).
Proof.
  induction pairs as [|[idx f] pairs IH]; intros v r H; cbn [map dispatch_loop fst snd applied].
  - exists v. auto.
  - assert (Hi : forall j, In j idx -> (j < length v)%nat) by (apply (H idx f); cbn; auto). rewrite gather_ok by exact Hi. cbn [rbind].
    assert (P : exists v1, (match map (fun j => nth j v 0) idx with
        | [] => dispatch_loop (map (fun p => (fst p, @apply_unary F (snd p))) pairs) v r
        | _ :: _ => let! (part, r0) := @apply_unary F f (Ind (map (fun j => nth j v 0) idx) None) r in
                    let! v0 := copy_back v idx (geno part) in dispatch_loop (map (fun p => (fst p, @apply_unary F (snd p))) pairs) v0 r0
        end) = dispatch_loop (map (fun p => (fst p, @apply_unary F (snd p))) pairs) v1 r /\ length v1 = length v /\
        forall i, (i < length v)%nat -> nth i v1 0 = if existsb (Nat.eqb i) idx then f (nth i v 0) else nth i v 0).
    { destruct (copy_back_ok idx v (map f (map (fun j => nth j v 0) idx)) Hi) as (v1 & E & Lv & U & _ & C); [rewrite !map_length; lia|].
      exists v1. split; [|split; [exact Lv|]].
      - destruct (map (fun j => nth j v 0) idx) as [|a l] eqn:M.
        + destruct idx; [|discriminate]. cbn in E. injection E as <-. reflexivity.
        + unfold apply_unary. cbn [rbind geno]. rewrite E. reflexivity.
      - intros i Li. destruct (existsb (Nat.eqb i) idx) eqn:Ex.
        + apply existsb_exists in Ex as (j & Hj & Ej). apply Nat.eqb_eq in Ej. subst j. apply (C (fun j => f (nth j v 0))); [|exact Hj].
          intros k Hk. rewrite map_map. rewrite (nth_indep _ 0 (f (nth (nth (length idx) idx 0%nat) v 0))) by (rewrite map_length; lia).
          rewrite (nth_indep _ _ ((fun x => f (nth x v 0)) 0%nat)) by (rewrite map_length; lia). rewrite (map_nth (fun x => f (nth x v 0))). reflexivity.
        + apply U. intros K. assert (existsb (Nat.eqb i) idx = true) by (apply existsb_exists; exists i; rewrite Nat.eqb_refl; auto). congruence. }
    destruct P as (v1 & E & L1 & N1). destruct (IH v1 r) as (v' & E' & L' & N').
    { intros idx0 f0 H0 j Hj. rewrite L1. apply (H idx0 f0); [right; exact H0|exact Hj]. }
    exists v'. split; [rewrite <- E'; exact E|]. split; [lia|]. intros i Li. rewrite N' by lia. rewrite N1 by lia. reflexivity.
Qed.
Lemma dispatch_one idx (rep : repairer F) v r part r' : (forall j, In j idx -> (j < length v)%nat) -> idx <> [] -> NoDup idx ->
  rep (Ind (map (fun j => nth j v 0) idx) None) r = Ok (part, r') -> (length idx <= length (geno part))%nat ->
  exists v', dispatch_loop [(idx, rep)] v r = Ok (v', r') /\ length v' = length v /\ (forall i, ~ In i idx -> nth i v' 0 = nth i v 0) /\
    forall k, (k < length idx)%nat -> nth (nth k idx 0%nat) v' 0 = nth k (geno part) 0.
Proof.
  intros L N ND E Lp. destruct (copy_back_ok idx v (geno part) L Lp) as (v' & E' & Lv & U & K & _). exists v'. cbn [dispatch_loop].
  rewrite gather_ok by exact L. cbn [rbind]. destruct (map (fun j => nth j v 0) idx) as [|a l] eqn:M; [destruct idx; [congruence|discriminate]|].
  rewrite E. cbn [rbind]. rewrite E'. cbn [rbind]. auto.
Qed.
End Disp.

(** ** samplers *)
Lemma draw_box_ok mins maxs : proper_box mins maxs -> forall r v r', good r -> draw_box mins maxs r = Ok (v, r') ->
  good r' /\ in_box mins maxs v /\ (forall d, nth d mins 0 < nth d maxs 0 -> nth d v 0 < nth d maxs 0) /\ length (us r) = (length mins + length (us r'))%nat.
Proof.
  induction 1 as [|mn mx mins maxs Hm H IH]; intros r v r' G E; cbn [draw_box] in E.
  - injection E as <- <-. split; [exact G|]. split; [split; constructor|]. split; [|reflexivity]. intros [|d]; cbn; auto.
  - apply rbind_ok in E as ([x r1] & E1 & E). apply rbind_ok in E as ([v1 r2] & E2 & E). injection E as <- <-.
    destruct (uniform2_ok _ _ _ _ _ Hm G E1) as (G1 & B & S & L1). destruct (IH _ _ _ G1 E2) as (G2 & [B1 B2] & S2 & L2).
    split; [exact G2|]. split; [split; constructor; try assumption; lra|]. split; [|cbn; lia]. intros [|d]; cbn; auto.
Qed.
Lemma draw_box_total mins maxs : proper_box mins maxs -> forall r, (length mins <= length (us r))%nat -> exists v r', draw_box mins maxs r = Ok (v, r').
Proof.
  induction 1 as [|mn mx mins maxs Hm H IH]; intros r L; cbn [draw_box]; [eauto|]. unfold uniform2, uniform. destruct r as [u z]. cbn [us zs] in *.
  destruct u as [|a u]; [cbn in L; lia|]. cbn [rbind]. destruct (IH (Rand u z)) as (v & r' & E); [cbn in *; lia|]. rewrite E. cbn. eauto.
Qed.

(** ** uniform estimator *)
Lemma widen_ok : forall x mn mx, length x = length mn -> length x = length mx ->
  exists mn' mx', widen x mn mx = Ok (mn', mx') /\ length mn' = length mn /\ length mx' = length mx /\
    forall d, (d < length x)%nat -> nth d mn' 0 = (if qltb (nth d x 0) (nth d mn 0) then nth d x 0 else nth d mn 0) /\
                            nth d mx' 0 = (if qltb (nth d mx 0) (nth d x 0) then nth d x 0 else nth d mx 0).
Proof.
  induction x as [|a x IH]; intros mn mx L1 L2; cbn [widen].
  - exists mn, mx. split; [reflexivity|]. split; [reflexivity|]. split; [reflexivity|]. cbn; lia.
  - destruct mn as [|m mn]; [discriminate|]. destruct mx as [|M mx]; [discriminate|]. cbn in L1, L2.
    destruct (IH mn mx) as (mn' & mx' & E & A & B & C); [lia|lia|]. rewrite E. cbn [rbind]. do 2 eexists. split; [reflexivity|].
    split; [cbn; lia|]. split; [cbn; lia|]. intros [|d] H; cbn [nth]; [auto|]. apply C. cbn in H. lia.
Qed.
Lemma least_snoc l m a : least l m -> least (l ++ [a]) (if qltb a m then a else m).
Proof.
  intros [I B]. destruct (qltb a m) eqn:E; [apply qltb_lt in E|apply qltb_ge in E]; (split; [apply in_or_app; cbn; auto|]);
    intros x Hx; apply in_app_or in Hx as [Hx|[<-|[]]]; try (specialize (B x Hx)); lra.
Qed.
Lemma greatest_snoc l m a : greatest l m -> greatest (l ++ [a]) (if qltb m a then a else m).
Proof.
  intros [I B]. destruct (qltb m a) eqn:E; [apply qltb_lt in E|apply qltb_ge in E]; (split; [apply in_or_app; cbn; auto|]);
    intros x Hx; apply in_app_or in Hx as [Hx|[<-|[]]]; try (specialize (B x Hx)); lra.
Qed.
Lemma widen_all_ok n : forall pop seen mn mx, same_size n pop -> length mn = n -> length mx = n ->
  (forall d, (d < n)%nat -> least (values 0 seen d) (nth d mn 0) /\ greatest (values 0 seen d) (nth d mx 0)) ->
  exists mn' mx', widen_all pop mn mx = Ok (mn', mx') /\ length mn' = n /\ length mx' = n /\
    (forall d, (d < n)%nat -> least (values 0 (seen ++ pop) d) (nth d mn' 0) /\ greatest (values 0 (seen ++ pop) d) (nth d mx' 0)).
Proof.
  induction pop as [|x pop IH]; intros seen mn mx Sz L1 L2 P; cbn [widen_all].
  - exists mn, mx. rewrite app_nil_r. auto.
  - inversion Sz as [|? ? Lx Sz']; subst. destruct (widen_ok x mn mx) as (mn' & mx' & E & A & B & C); [lia|lia|]. rewrite E. cbn [rbind].
    destruct (IH (seen ++ [x]) mn' mx') as (mn2 & mx2 & E2 & A2 & B2 & C2); [assumption|lia|lia| |].
    { intros d Hd. destruct (C d ltac:(lia)) as [-> ->]. destruct (P d Hd) as [P1 P2]. unfold values. rewrite map_app. cbn [map].
      split; [apply least_snoc; exact P1|apply greatest_snoc; exact P2]. }
    exists mn2, mx2. rewrite <- app_assoc in C2. auto.
Qed.
Lemma estimator_uniform_ok {F} n (pop : list (indiv (list Q) F)) : pop <> [] -> same_size n (map geno pop) ->
  exists b, estimator_uniform pop = Ok b /\ length (lows b) = n /\ length (highs b) = n /\
    forall d, (d < n)%nat -> least (values 0 (map geno pop) d) (nth d (lows b) 0) /\ greatest (values 0 (map geno pop) d) (nth d (highs b) 0).
Proof.
  intros N Sz. destruct pop as [|x pop]; [congruence|]. cbn [map] in Sz. inversion Sz as [|? ? Lx Sz']; subst.
  destruct (widen_all_ok (length (geno x)) (map geno pop) [geno x] (geno x) (geno x)) as (mn & mx & E & A & B & C); auto.
  { intros d Hd. cbn. split; (split; [cbn; auto|]); intros y [<-|[]]; apply Qle_refl. }
  unfold estimator_uniform. rewrite E. cbn [rbind]. eexists. split; [reflexivity|]. cbn. auto.
Qed.
Lemma box_from n mn mx : length mn = n -> length mx = n -> (forall d, (d < n)%nat -> nth d mn 0 <= nth d mx 0) -> Forall2 Qle mn mx.
Proof.
  revert mn mx. induction n; intros [|m mn] [|M mx] L1 L2 H; try discriminate; constructor.
  - apply (H 0%nat). lia.
  - apply IHn; try (cbn in *; lia). intros d Hd. apply (H (S d)). lia.
Qed.
Lemma in_values {A} (dummy : A) pop x d : In x pop -> In (nth d x dummy) (values dummy pop d).
Proof. intros H. unfold values. apply in_map_iff. eauto. Qed.
Lemma values_in {A} (dummy : A) pop d y : In y (values dummy pop d) -> exists x, In x pop /\ nth d x dummy = y.
Proof. unfold values. intros H. apply in_map_iff in H as (x & E & I). eauto. Qed.

(** ** binomial *)
Lemma tally_ok n : forall ps x, length x = length ps ->
  exists ps', tally n x ps = Ok ps' /\ length ps' = length ps /\ forall d, (d < length ps)%nat -> nth d ps' 0 = nth d ps 0 + bit (nth d x false) / n.
Proof.
  induction ps as [|p ps IH]; intros x L; cbn [tally].
  - exists []. split; [reflexivity|]. split; [reflexivity|]. cbn; lia.
  - destruct x as [|b x]; [discriminate|]. cbn in L. destruct (IH x) as (ps' & E & A & C); [lia|]. rewrite E. cbn [rbind]. eexists. split; [reflexivity|].
    split; [cbn; lia|]. intros [|d] H; cbn [nth]; [reflexivity|]. apply C. cbn in H. lia.
Qed.
Lemma tally_all_ok n k : forall pop ps, same_size k pop -> length ps = k ->
  exists ps', tally_all n pop ps = Ok ps' /\ length ps' = k /\
    forall d, (d < k)%nat -> nth d ps' 0 == nth d ps 0 + inject_Z (Z.of_nat (length (filter (fun b => b) (values false pop d)))) / n.
Proof.
  induction pop as [|x pop IH]; intros ps Sz L; cbn [tally_all].
  - exists ps. split; [reflexivity|]. split; [exact L|]. intros d Hd. cbn. unfold Qdiv. ring.
  - inversion Sz as [|? ? Lx Sz']; subst. destruct (tally_ok n ps x) as (ps1 & E & A & C); [lia|]. rewrite E. cbn [rbind].
    destruct (IH ps1 Sz') as (ps' & E' & A' & C'); [lia|]. exists ps'. split; [exact E'|]. split; [lia|]. intros d Hd. rewrite C', C by lia.
    unfold values. cbn [map filter]. destruct (nth d x false); cbn [bit length]; [|unfold Qdiv; ring].
    rewrite Nat2Z.inj_succ. unfold Z.succ. rewrite inject_Z_plus. change (inject_Z 1) with 1. unfold Qdiv. ring.
Qed.
Lemma nth_repeat0 n d : nth d (repeat 0 n) 0 = 0.
Proof. revert d. induction n; intros [|d]; cbn; auto. Qed.
Lemma estimator_binomial_ok {F} n (pop : list (indiv (list bool) F)) : pop <> [] -> same_size n (map geno pop) ->
  exists ps, estimator_binomial pop = Ok ps /\ length ps = n /\ forall d, (d < n)%nat -> nth d ps 0 == proportion (values false (map geno pop) d).
Proof.
  intros N Sz. destruct pop as [|x rest]; [congruence|]. unfold estimator_binomial.
  assert (Lx : length (geno x) = n) by (inversion Sz; assumption).
  destruct (tally_all_ok (inject_Z (Z.of_nat (length (x :: rest)))) n (map geno (x :: rest)) (repeat 0 (length (geno x))) Sz) as (ps & E & L & C).
  { rewrite repeat_length. exact Lx. }
  exists ps. split; [exact E|]. split; [exact L|]. intros d Hd. rewrite C by exact Hd. rewrite nth_repeat0.
  unfold proportion, values. rewrite !map_length. unfold Qdiv. ring.
Qed.
Lemma draw_bits_sure : forall ps r v r', good r -> draw_bits ps r = Ok (v, r') -> length v = length ps /\ length (us r) = (length ps + length (us r'))%nat /\
  forall d, (d < length ps)%nat -> (nth d ps 0 <= 0 -> nth d v false = false) /\ (1 <= nth d ps 0 -> nth d v false = true).
Proof.
  induction ps as [|p ps IH]; intros r v r' G E; cbn [draw_bits] in E.
  - injection E as <- <-. split; [reflexivity|]. split; [reflexivity|]. cbn; lia.
  - apply rbind_ok in E as ([b r1] & E1 & E). apply rbind_ok in E as ([v1 r2] & E2 & E). injection E as <- <-.
    unfold flip in E1. apply rbind_ok in E1 as ([u r3] & E1 & E3). injection E3 as Eb E3. subst r3.
    destruct (uniform_good _ _ _ G E1) as (G1 & U1 & U2). apply uniform_ok in E1 as (Eu & _).
    destruct (IH _ _ _ G1 E2) as (L & C & D). split; [cbn; lia|]. split; [rewrite Eu; cbn; lia|].
    intros [|d] Hd; cbn [nth]; [|apply D; cbn in Hd; lia]. subst b. split; intros H.
    + apply qltb_ge. lra.
    + apply qltb_lt. lra.
Qed.
Lemma proportion_bounds l : l <> [] -> 0 <= proportion l <= 1.
Proof.
  intros N. unfold proportion. assert (0 < inject_Z (Z.of_nat (length l))).
  { rewrite <- (Zlt_Qlt 0). destruct l; [congruence|]. cbn [length]. lia. }
  split; [apply Qle_shift_div_l; [assumption|]|apply Qle_shift_div_r; [assumption|]].
  - rewrite Qmult_0_l. rewrite <- (Zle_Qle 0). lia.
  - rewrite Qmult_1_l, <- Zle_Qle. apply inj_le. clear. induction l as [|b l IH]; cbn; [lia|]. destruct b; cbn; lia.
Qed.
Lemma filter_const (b : bool) : forall l, (forall x, In x l -> x = b) -> length (filter (fun b => b) l) = if b then length l else 0%nat.
Proof.
  induction l as [|x l IH]; intros H; [destruct b; reflexivity|]. cbn. rewrite (H x) by (cbn; auto). destruct b; cbn; rewrite IH by (intros; apply H; cbn; auto); reflexivity.
Qed.
Lemma proportion_const l b : l <> [] -> (forall x, In x l -> x = b) -> proportion l == bit b.
Proof.
  intros N H. unfold proportion. rewrite (filter_const b l H).
  assert (0 < inject_Z (Z.of_nat (length l))) by (rewrite <- (Zlt_Qlt 0); destruct l; [congruence|cbn [length]; lia]).
  destruct b; cbn [bit]; [field; lra|]. change (inject_Z (Z.of_nat 0)) with 0. field. lra.
Qed.

(** ** Welford *)
Definition start_var := Welford 0 0 0.
Lemma welford_inv l : let w := fold_left update_var l start_var in
  w_n w == size l /\ w_n w * w_mean w == total l /\ (l <> [] -> w_M2 w == total (map (fun x => x * x) l) - w_n w * w_mean w * w_mean w).
Proof.
  induction l as [|x l IH] using rev_ind; cbn zeta in *.
  - cbn. split; [reflexivity|]. split; [reflexivity|]. congruence.
  - rewrite fold_left_app. cbn [fold_left]. set (w := fold_left update_var l start_var) in *. destruct IH as (A & B & C).
    unfold size in *. rewrite app_length, map_app, !total_app. cbn [length map total]. replace (length l + 1)%nat with (S (length l)) by lia.
    rewrite Nat2Z.inj_succ. unfold Z.succ. rewrite inject_Z_plus. change (inject_Z 1) with 1.
    assert (Nn : 0 <= inject_Z (Z.of_nat (length l))) by (rewrite <- (Zle_Qle 0); lia).
    unfold update_var. cbn [w_n w_mean w_M2].
    assert (P : ~ w_n w + 1 == 0) by lra. split; [rewrite A; reflexivity|]. split.
    + rewrite <- B. field. exact P.
    + intros _. destruct l as [|a l].
      * cbn in w. subst w. cbn. field.
      * rewrite C by discriminate. field. exact P.
Qed.
Lemma welford_ok l : l <> [] -> let w := fold_left update_var l start_var in w_mean w == average l /\ w_M2 w / w_n w == variance l.
Proof.
  intros N. destruct (welford_inv l) as (A & B & C). cbn zeta in *. set (w := fold_left update_var l start_var) in *.
  pose proof (size_pos l N) as P. assert (M : w_mean w == average l).
  { unfold average. rewrite <- B, A. field. lra. }
  split; [exact M|]. rewrite (variance_alt l N), (C N), M, A. field. lra.
Qed.
Lemma update_all_ok : forall ws x, length x = length ws ->
  exists ws', update_all x ws = Ok ws' /\ length ws' = length ws /\ forall d, (d < length ws)%nat -> nth d ws' start_var = update_var (nth d ws start_var) (nth d x 0).
Proof.
  induction ws as [|w ws IH]; intros x L; cbn [update_all].
  - exists []. split; [reflexivity|]. split; [reflexivity|]. cbn; lia.
  - destruct x as [|a x]; [discriminate|]. cbn in L. destruct (IH x) as (ws' & E & A & C); [lia|]. rewrite E. cbn [rbind]. eexists. split; [reflexivity|].
    split; [cbn; lia|]. intros [|d] H; cbn [nth]; [reflexivity|]. apply C. cbn in H. lia.
Qed.
Lemma update_pop_ok k : forall pop ws, same_size k pop -> length ws = k ->
  exists ws', update_pop pop ws = Ok ws' /\ length ws' = k /\ forall d, (d < k)%nat -> nth d ws' start_var = fold_left update_var (values 0 pop d) (nth d ws start_var).
Proof.
  induction pop as [|x pop IH]; intros ws Sz L; cbn [update_pop].
  - exists ws. split; [reflexivity|]. split; [exact L|]. reflexivity.
  - inversion Sz as [|? ? Lx Sz']; subst. destruct (update_all_ok ws x) as (ws1 & E & A & C); [lia|]. rewrite E. cbn [rbind].
    destruct (IH ws1 Sz') as (ws' & E' & A' & C'); [lia|]. exists ws'. split; [exact E'|]. split; [lia|]. intros d Hd. rewrite C', C by lia. reflexivity.
Qed.
Lemma nth_repeat_same {A} (a : A) n d : nth d (repeat a n) a = a.
Proof. revert d. induction n; intros [|d]; cbn; auto. Qed.
Lemma nth_map_in {A B} (f : A -> B) l d da db : (d < length l)%nat -> nth d (map f l) db = f (nth d l da).
Proof. revert d. induction l; intros [|d] H; cbn in *; try lia; auto. apply IHl. lia. Qed.
Lemma estimator_normal_ok {F} n (pop : list (indiv (list Q) F)) : pop <> [] -> same_size n (map geno pop) ->
  exists d, estimator_normal pop = Ok d /\ length (means d) = n /\ length (variances d) = n /\
    forall i, (i < n)%nat -> nth i (means d) 0 == average (values 0 (map geno pop) i) /\ nth i (variances d) 0 == variance (values 0 (map geno pop) i).
Proof.
  intros N Sz. destruct pop as [|x rest]; [congruence|]. unfold estimator_normal.
  assert (Lx : length (geno x) = n) by (inversion Sz; assumption).
  destruct (update_pop_ok n (map geno (x :: rest)) (repeat start_var (length (geno x))) Sz) as (ws & E & L & C).
  { rewrite repeat_length. exact Lx. }
  change (Welford 0 0 0) with start_var. rewrite E. cbn [rbind]. eexists. split; [reflexivity|]. cbn [means variances]. rewrite !map_length.
  split; [exact L|]. split; [exact L|]. intros i Hi.
  rewrite (nth_map_in w_mean ws i start_var 0), (nth_map_in (fun w => w_M2 w / w_n w) ws i start_var 0) by lia.
  rewrite C by exact Hi. rewrite nth_repeat_same. apply welford_ok. discriminate.
Qed.

(** ** the multi-variate estimator *)
Lemma qdot_total : forall a b, length a = length b -> qdot a b == total (map (fun p => fst p * snd p) (combine a b)).
Proof. induction a as [|x a IH]; intros [|y b] L; try discriminate; cbn [qdot combine map total fst snd]; [reflexivity|]. cbn in L. rewrite IH by lia. reflexivity. Qed.
Lemma qdot_ones a : qdot a (repeat 1 (length a)) == total a.
Proof. induction a; cbn [length repeat qdot total]; [reflexivity|]. rewrite IHa. ring. Qed.
Lemma estimator_multi_ok pop i j : pop <> [] -> fst (estimator_multi pop) i == average (values 0 pop i) /\
  snd (estimator_multi pop) i j == covariance (values 0 pop i) (values 0 pop j) + average (values 0 pop i) * average (values 0 pop j).
Proof.
  intros N. unfold estimator_multi. cbn [fst snd]. change (column pop) with (values 0 pop).
  assert (Li : forall k, length (values 0 pop k) = length pop) by (intros; apply map_length).
  assert (Nv : values 0 pop i <> []) by (destruct pop; [congruence|discriminate]).
  split.
  - unfold average, size. rewrite Li. rewrite <- (Li i) at 1. rewrite qdot_ones. reflexivity.
  - rewrite covariance_alt by (rewrite ?Li; auto). rewrite qdot_total by (rewrite !Li; reflexivity). unfold size. rewrite Li. ring.
Qed.
