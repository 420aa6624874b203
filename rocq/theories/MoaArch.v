(** The algorithms around an archive, and SPEA2 (C149, C150). *)
From Coq Require Import List Arith Lia Bool ZArith QArith Qround Lqa Permutation.
From Verif Require Import Outcome Lib PopModel ParetoModel ParetoSpec ParetoProofs ArchModel ArchSpec ArchProofs ArchReal ReplModel ReplProofs BreedModel BreedSpec BreedProofs AlgoSpec MoaModel MoaSpec MoaBreed.
Import ListNotations.
Close Scope Q_scope.
Open Scope nat_scope.

Section Arch.
Context {G W : Type}.
Notation I := (indiv G (list Q)).
Variable value : G -> list Q.
Variable dirs : list bool.
Variable swaps : bool.
Hypothesis Hsize : forall g, length (value g) = length dirs.
Notation updates := (update_pop I (list Q) vector (pareto 0 dirs) (same_vector 0) swaps).
Notation front := (represents_front (under value dirs) (level value)).

Lemma known_vector (x : I) : known value x -> vector x = value (geno x).
Proof. unfold known, vector. intros ->. auto. Qed.
Lemma known_same (x y : I) : known value x -> known value y -> geno x = geno y -> x = y.
Proof. destruct x, y; unfold known; cbn. intros -> -> ->. auto. Qed.
Lemma known_list (l l' : list I) : Forall (known value) l -> Forall (known value) l' -> map (@geno G (list Q)) l = map (@geno G (list Q)) l' -> l = l'.
Proof.
  revert l'. induction l as [|x l IH]; intros [|y l'] F F' E; try discriminate; auto. inversion_clear F. inversion_clear F'. inversion E. f_equal; auto. apply known_same; auto.
Qed.

Lemma updates_app : forall l pop pop' acc l1 b1, updates l pop acc = Ok (l1, b1) -> updates l (pop ++ pop') acc = updates l1 pop' b1.
Proof.
  intros l pop. revert l. induction pop as [|x pop IH]; intros l pop' acc l1 b1 H; cbn [update_pop app] in *; [inversion H; subst; auto|].
  apply rbind_ok in H as ([l' b] & E & H). rewrite E. cbn [rbind]. eapply IH; eauto.
Qed.
Lemma updates_acc : forall pop l acc l1 b1, updates l pop acc = Ok (l1, b1) -> forall acc', exists b', updates l pop acc' = Ok (l1, b').
Proof.
  induction pop as [|x pop IH]; intros l acc l1 b1 H acc'; cbn [update_pop] in *; [inversion H; subst; eauto|].
  apply rbind_ok in H as ([l' b] & E & H). rewrite E. cbn [rbind]. eapply IH; eauto.
Qed.
Lemma offer_some arch pop a : offer_pop dirs swaps arch pop = Ok a -> exists b, updates arch pop false = Ok (a, b).
Proof.
  unfold offer_pop. destruct (forallb _ pop); [|discriminate]. intros H. apply rbind_ok in H as ([a' b] & E & H). inversion H; subst. eauto.
Qed.
Lemma offers_app l p1 p2 l1 l2 b1 b2 : updates l p1 false = Ok (l1, b1) -> updates l1 p2 false = Ok (l2, b2) -> exists b, updates l (p1 ++ p2) false = Ok (l2, b).
Proof. intros H1 H2. rewrite (updates_app _ _ _ _ _ _ H1). eapply updates_acc; eauto. Qed.

(** the archive after everything it was offered *)
Lemma front_offered init offered l b : Forall (known value) (init ++ offered) -> antichain (under value dirs) (level value) init ->
  updates init offered false = Ok (l, b) -> front (init ++ offered) l.
Proof.
  intros F Ha H. rewrite Forall_forall in F. set (dm := fun a b : I => dominates dirs (vector b) (vector a)). set (ev := fun a b : I => equal_vectors (vector a) (vector b)).
  assert (Iff : forall a c, In a (init ++ offered) -> In c (init ++ offered) -> (dm a c <-> under value dirs a c) /\ (ev a c <-> level value a c)).
  { intros a c Ia Ic. unfold dm, ev, under, level. rewrite !known_vector by auto. tauto. }
  destruct (real_more I vector dirs swaps init offered) as (l' & b' & E & R).
  - apply Forall_forall. intros x Hx. rewrite known_vector by auto. apply Hsize.
  - intros i j a c Hij Ha1 Hc1. destruct (Ha i j a c Hij Ha1 Hc1) as [B1 B2].
    apply nth_error_In in Ha1, Hc1. destruct (Iff a c) as [C1 C2]; [apply in_app_iff; auto|apply in_app_iff; auto|]. split; intros D; [apply B1, C1, D|apply B2, C2, D].
  - assert (l' = l) as -> by congruence. eapply represents_front_iff; [left; intros m Hm; apply R; auto| |exact R]. auto.
Qed.
Lemma updates_sub init offered l b : Forall (known value) (init ++ offered) -> antichain (under value dirs) (level value) init ->
  updates init offered false = Ok (l, b) -> Forall (known value) l /\ antichain (under value dirs) (level value) l /\ (forall x, In x l -> In x (init ++ offered)).
Proof.
  intros F Ha H. destruct (front_offered init offered l b F Ha H) as (R1 & R2 & _). split; [|split]; auto; [|intros x Hx; apply R2; auto].
  rewrite Forall_forall in *. intros x Hx. apply F, R2. auto.
Qed.

Variable pop_eval : list I -> list I -> W -> res (list I * list I * W).
Variable cont : list I -> W -> res (bool * W).
Hypothesis Hpe : evaluates_pop value pop_eval.

(** ** SEEA *)
Section Seea.
Variable s : seea (G:=G) (W:=W).
Variable P : list I -> list I -> list I -> Prop.
Hypothesis Hbr : forall arch pop w off w', Forall (known value) (arch ++ pop) -> gen_breed s arch pop w = Ok (off, w') -> Forall (unspoilt value) off /\ P arch pop off.

Lemma seea_loop_ok : forall fuel pop arch w pop' arch' h w', Forall (known value) (arch ++ pop) -> antichain (under value dirs) (level value) arch ->
  seea_loop dirs swaps pop_eval cont (gen_breed s) fuel pop arch w = Ok (pop', arch', h, w') ->
  pop' = pop /\ Forall (Forall (known value)) h /\ (exists b, updates arch (concat h) false = Ok (arch', b)) /\
  (forall i off, nth_error h i = Some off -> exists a o, (exists b, updates arch (concat (firstn i h)) false = Ok (a, b)) /\ P a pop o /\ map (@geno G (list Q)) off = map (@geno G (list Q)) o).
Proof.
  induction fuel as [|fuel IH]; intros pop arch w pop' arch' h w' F Ha H; cbn [seea_loop] in H; [discriminate|].
  apply rbind_ok in H as ([b w1] & E1 & H). destruct b.
  - apply rbind_ok in H as ([off w2] & E2 & H). apply rbind_ok in H as ([[pop1 off1] w3] & E3 & H). destruct (Hbr _ _ _ _ _ F E2) as [B1 B2].
    pose proof F as F0. apply Forall_app in F as [Fa Fp]. destruct (Hpe _ _ _ _ _ _ Fp B1 E3) as (-> & K & Eg).
    apply rbind_ok in H as (arch1 & E4 & H). apply offer_some in E4 as [b4 E4]. apply rbind_ok in H as ([[[p a] hh] w4] & E5 & H). inversion H; subst.
    destruct (updates_sub arch off1 arch1 b4) as (U1 & U2 & U3); auto; [apply Forall_app; auto|].
    destruct (IH pop arch1 w3 pop' arch' hh w' (proj2 (Forall_app _ _ _) (conj U1 Fp)) U2 E5) as (-> & I2 & (b5 & I3) & I4). split; auto. split; auto. split.
    + cbn [concat]. eapply offers_app; eauto.
    + intros [|i] o Hi; cbn [nth_error] in Hi.
      * inversion Hi; subst. exists arch, off. split; [exists false; auto|]. auto.
      * destruct (I4 i o Hi) as (a' & o' & (bb & A1) & A2 & A3). exists a', o'. split; auto. cbn [firstn concat]. eapply offers_app; eauto.
  - inversion H; subst. split; auto. split; auto. split; [exists false; auto|]. intros i off Hi. destruct i; discriminate.
Qed.

Lemma seea_run_ok fuel pop arch w pop' arch' h w' : Forall (unspoilt value) pop -> Forall (known value) arch -> antichain (under value dirs) (level value) arch ->
  seea_run dirs swaps pop_eval cont s fuel pop arch w = Ok (pop', arch', h, w') ->
  Forall (known value) pop' /\ map (@geno G (list Q)) pop' = map (@geno G (list Q)) pop /\ Forall (Forall (known value)) h /\
  front (arch ++ pop' ++ concat h) arch' /\
  (forall i off, nth_error h i = Some off -> exists a o, front (arch ++ pop' ++ concat (firstn i h)) a /\ P a pop' o /\ map (@geno G (list Q)) off = map (@geno G (list Q)) o).
Proof.
  intros F Fa Ha H. unfold seea_run in H. apply rbind_ok in H as ([[par1 pop1] w1] & E1 & H). destruct (Hpe [] pop w _ _ _ (Forall_nil _) F E1) as (_ & K & Eg).
  apply rbind_ok in H as (arch1 & E4 & H). apply offer_some in E4 as [b4 E4]. destruct (updates_sub arch pop1 arch1 b4) as (U1 & U2 & U3); auto; [apply Forall_app; auto|].
  destruct (seea_loop_ok fuel pop1 arch1 w1 pop' arch' h w') as (-> & I2 & (b5 & I3) & I4); auto; [apply Forall_app; auto|].
  assert (Kc : forall k, Forall (known value) (concat (firstn k h))).
  { intros k. apply Forall_forall. intros x Hx. apply in_concat in Hx as (l & Hl & Hx). rewrite Forall_forall in I2. assert (Hl' : In l h) by (rewrite <- (firstn_skipn k h); apply in_app_iff; auto). specialize (I2 l Hl'). rewrite Forall_forall in I2. auto. }
  split; auto. split; auto. split; auto. split.
  - destruct (offers_app _ _ _ _ _ _ _ E4 I3) as [b6 E6]. eapply front_offered; eauto. rewrite <- (firstn_all h). apply Forall_app; split; auto. apply Forall_app; auto.
  - intros i off Hi. destruct (I4 i off Hi) as (a & o & (b7 & A1) & A2 & A3). exists a, o. split; auto. destruct (offers_app _ _ _ _ _ _ _ E4 A1) as [b6 E6]. eapply front_offered; eauto. apply Forall_app; split; auto. apply Forall_app; auto.
Qed.
End Seea.

(** ** the breeders of SEEA *)
Section Breeders.
Variable pick : list I -> W -> res (I * W).
Variable flip : Q -> W -> res (bool * W).
Variable wheel : list Q -> W -> res (nat * W).
Hypothesis Hpick : forall l w x w', pick l w = Ok (x, w') -> In x l.

Lemma seea_select_in arch pop w x w' : seea_select pick flip arch pop w = Ok (x, w') -> In x (arch ++ pop).
Proof.
  unfold seea_select, pop_or_arch. intros H. destruct (0 <? length arch).
  - apply rbind_ok in H as ([b w1] & E & H). destruct b; apply Hpick in H; apply in_app_iff; auto.
  - apply Hpick in H. apply in_app_iff. auto.
Qed.
Lemma whole n : hm_call (HowMany 1%Q 0) n = Ok n.
Proof.
  unfold hm_call. cbn [hm_count hm_rate]. change (0 =? 0)%Z with true. cbv iota.
  assert (E : Qceiling (1 * inject_Z (Z.of_nat n)) = Z.of_nat n) by (rewrite (Qceiling_comp _ _ (Qmult_1_l _)); apply Qceiling_Z). rewrite E.
  destruct (Z.ltb_spec (Z.of_nat n) 0); [lia|]. rewrite Nat2Z.id. auto.
Qed.
Lemma seea_breeder_keeps (P : I -> Prop) turns op arch pop w off w' : keeps P op -> (forall x, In x (arch ++ pop) -> P x) ->
  seea_breeder pick flip wheel turns op arch pop w = Ok (off, w') -> length off = length pop /\ Forall P off.
Proof.
  intros Hk HP H. unfold seea_breeder in H.
  apply (general_breeder_keeps P pop (seea_select pick flip arch pop) flip wheel) in H as [H1 H2]; auto.
  - rewrite whole in H1. inversion H1. auto.
  - intros v x v' E. apply HP. eapply seea_select_in; eauto.
Qed.
(** with the ratio 0 nobody is taken from the population once the archive has members *)
Lemma seea_breeder_arch (P : I -> Prop) turns op arch pop w off w' : (forall w b w', flip 0%Q w = Ok (b, w') -> b = false) -> arch <> [] ->
  keeps P op -> (forall x, In x arch -> P x) ->
  seea_breeder pick flip wheel turns op arch pop w = Ok (off, w') -> Forall P off.
Proof.
  intros Hf Hn Hk HP H. unfold seea_breeder in H.
  apply (general_breeder_keeps P pop (seea_select pick flip arch pop) flip wheel) in H as [_ H2]; auto.
  intros v x v' E. apply HP. unfold seea_select, pop_or_arch in E. destruct arch; [tauto|]. cbn [length Nat.ltb Nat.leb] in E.
  apply rbind_ok in E as ([b w1] & E1 & E). rewrite (Hf _ _ _ E1) in E. apply Hpick in E. auto.
Qed.

(** what a generation gets from the operators *)
Definition bred (arch pop off : list I) : Prop := length off = length pop /\ (arch <> [] -> Forall (fresh_or_copy arch) off).
Lemma op_breeds turns op : honest op -> (forall w b w', flip 0%Q w = Ok (b, w') -> b = false) ->
  forall arch pop w off w', Forall (known value) (arch ++ pop) -> seea_breeder pick flip wheel turns op arch pop w = Ok (off, w') -> Forall (unspoilt value) off /\ bred arch pop off.
Proof.
  intros Hh Hf arch pop w off w' F H. rewrite Forall_forall in F.
  destruct (seea_breeder_keeps (unspoilt value) turns op arch pop w off w') as [L U]; auto.
  - apply honest_keeps; auto. intros g. left. auto.
  - intros x Hx. right. auto.
  - split; auto. split; auto. intros Hn. eapply (seea_breeder_arch (fresh_or_copy arch)); eauto.
    + apply honest_keeps; auto. intros g. left. auto.
    + intros x Hx. right. auto.
Qed.
Lemma honest_sga cross pc mut pm : honest_quad cross -> honest_mon mut -> honest (sga_op (G:=G) (W:=W) cross pc mut pm).
Proof.
  intros H1 H2. assert (H3 : honest_quad (G:=G) (F:=list Q) (W:=W) quad_clone) by (intros x y w x' y' w' E; inversion E; auto). cbn. auto.
Qed.

(** the constructors with a transform only copy *)
Lemma clones_keep (P : I -> Prop) : keeps P (sga_op (G:=G) (W:=W) quad_clone 0%Q mon_clone 0%Q).
Proof.
  assert (H2 : forall (x y : I) (w : W) x' y' ch w', P x -> P y -> quad_clone x y w = Ok (x', y', ch, w') -> P (touch ch x') /\ P (touch ch y')).
  { intros x y w x' y' ch w' Px Py E. inversion E; subst. auto. }
  assert (H1 : forall (x : I) (w : W) x' ch w', P x -> mon_clone x w = Ok (x', ch, w') -> P (touch ch x')).
  { intros x w x' ch w' Px E. inversion E; subst. auto. }
  cbn [sga_op keeps]. auto.
Qed.
Definition copied (arch pop off : list I) : Prop := forall x, In x off -> In x (arch ++ pop).
Lemma transform_breeds turns tr : forall arch pop w off w', Forall (known value) (arch ++ pop) ->
  gen_breed (seea_transform pick flip wheel turns tr) arch pop w = Ok (off, w') -> Forall (unspoilt value) off /\ copied arch pop off.
Proof.
  intros arch pop w off w' F H. cbn [gen_breed seea_transform] in H. rewrite Forall_forall in F.
  destruct (seea_breeder_keeps (fun x => In x (arch ++ pop)) turns (sga_op quad_clone 0%Q mon_clone 0%Q) arch pop w off w') as [_ U]; auto; [apply clones_keep|].
  rewrite Forall_forall in U. split; [apply Forall_forall; intros x Hx; right; auto|]. auto.
Qed.
Lemma front_more seen seen' l : (forall x, In x seen <-> In x seen') -> front seen l -> front seen' l.
Proof.
  intros H (R1 & R2 & R3). split; [auto|]. split.
  - intros m Hm. destruct (R2 m Hm) as [A1 A2]. split; [apply H; auto|]. intros y Hy. apply A2, H. auto.
  - intros x [A1 A2]. apply R3. split; [apply H; auto|]. intros y Hy. apply A2, H. auto.
Qed.
Lemma transform_idle turns tr fuel pop arch w pop' arch' h w' : Forall (unspoilt value) pop -> Forall (known value) arch -> antichain (under value dirs) (level value) arch ->
  seea_run dirs swaps pop_eval cont (seea_transform pick flip wheel turns tr) fuel pop arch w = Ok (pop', arch', h, w') ->
  Forall (known value) pop' /\ map (@geno G (list Q)) pop' = map (@geno G (list Q)) pop /\ (forall off x, In off h -> In x off -> In x (arch ++ pop')) /\ front (arch ++ pop') arch'.
Proof.
  intros F Fa Ha H. destruct (seea_run_ok (seea_transform pick flip wheel turns tr) copied (transform_breeds turns tr) fuel pop arch w pop' arch' h w' F Fa Ha H) as (R1 & R2 & R3 & R4 & R5).
  assert (C : forall i off x, nth_error h i = Some off -> In x off -> In x (arch ++ pop')).
  { intros i. induction i as [i IH] using lt_wf_ind. intros off x Hi Hx. destruct (R5 i off Hi) as (a & o & A1 & A2 & A3).
    assert (Hin : In (geno x) (map (@geno G (list Q)) o)) by (rewrite <- A3; apply in_map; auto). apply in_map_iff in Hin as (y & Ey & Hy). apply A2 in Hy.
    assert (Hy2 : In y (arch ++ pop')).
    { apply in_app_iff in Hy as [Hy|Hy]; [|apply in_app_iff; auto]. destruct A1 as (_ & A1 & _). destruct (A1 y Hy) as [Hs _].
      rewrite app_assoc in Hs. apply in_app_iff in Hs as [|Hs]; auto. apply in_concat in Hs as (l & Hl & Hy'). apply In_nth_error in Hl as [j Hj]. pose proof (nth_error_lt _ _ _ Hj) as Lj. rewrite firstn_length in Lj.
      rewrite firstn_nth_error in Hj by lia. assert (j < i) by lia. eapply IH; eauto. }
    assert (Ky : known value y) by (apply in_app_iff in Hy2 as [Hy2|Hy2]; [rewrite Forall_forall in Fa; auto|rewrite Forall_forall in R1; auto]).
    assert (Kx : known value x) by (rewrite Forall_forall in R3; specialize (R3 off (nth_error_In _ _ Hi)); rewrite Forall_forall in R3; auto).
    rewrite (known_same x y); auto. }
  split; auto. split; auto. split; [intros off x Ho Hx; apply In_nth_error in Ho as [i Hi]; eapply C; eauto|].
  eapply front_more; [|exact R4]. intros x. rewrite app_assoc, in_app_iff. split; [|auto]. intros [|Hx]; auto. apply in_concat in Hx as (l & Hl & Hx). apply In_nth_error in Hl as [i Hi]. eapply C; eauto.
Qed.
End Breeders.

(** ** ASEEA *)
Section Aseea.
Variable shuffle : W -> list nat -> list nat.
Variable reseed : W -> W.
Variable transform : list I -> W -> res (list I * W).
Hypothesis Hshuf : forall w l, Permutation l (shuffle w l).
Hypothesis Htr : transforms value transform.

Lemma aseea_loop_ok mx : forall fuel pop arch w pop' arch' h w', Forall (known value) (arch ++ pop) -> antichain (under value dirs) (level value) arch ->
  aseea_loop dirs swaps pop_eval cont shuffle reseed mx transform fuel pop arch w = Ok (pop', arch', h, w') ->
  pop' = match h with [] => pop | _ => [] end /\ Forall (Forall (known value)) h /\ (exists b, updates arch (concat h) false = Ok (arch', b)).
Proof.
  induction fuel as [|fuel IH]; intros pop arch w pop' arch' h w' F Ha H; cbn [aseea_loop] in H; [discriminate|].
  apply rbind_ok in H as ([b w1] & E1 & H). destruct b.
  - apply rbind_ok in H as (sel & Es & H). apply rbind_ok in H as ([off w2] & E2 & H). apply rbind_ok in H as ([[pop1 off1] w3] & E3 & H).
    pose proof F as F0. apply Forall_app in F as [Fa Fp].
    destruct (det_archive_ok I (shuffle w1) arch mx 0 [] (Hshuf w1) ltac:(lia) (or_intror eq_refl)) as (sel' & Es' & _ & Hin & _). assert (sel' = sel) as -> by congruence.
    assert (Fs : Forall (known value) sel) by (rewrite Forall_forall in *; auto).
    destruct (Hpe _ _ _ _ _ _ Fp (Htr _ _ _ _ Fs E2) E3) as (-> & K & Eg).
    apply rbind_ok in H as (arch1 & E4 & H). apply offer_some in E4 as [b4 E4]. apply rbind_ok in H as ([[[p a] hh] w4] & E5 & H). inversion H; subst.
    destruct (updates_sub arch off1 arch1 b4) as (U1 & U2 & U3); auto; [apply Forall_app; auto|].
    destruct (IH [] arch1 w3 pop' arch' hh w') as (-> & I2 & (b5 & I3)); auto; [rewrite app_nil_r; auto|]. split; [destruct hh; auto|]. split; auto.
    cbn [concat]. eapply offers_app; eauto.
  - inversion H; subst. split; auto. split; auto. exists false; auto.
Qed.
Lemma aseea_run_ok mx fuel pop arch w pop' arch' h w' : Forall (unspoilt value) pop -> Forall (known value) arch -> antichain (under value dirs) (level value) arch ->
  aseea_run dirs swaps pop_eval cont shuffle reseed mx transform fuel pop arch w = Ok (pop', arch', h, w') ->
  exists pop1, Forall (known value) pop1 /\ map (@geno G (list Q)) pop1 = map (@geno G (list Q)) pop /\ Forall (Forall (known value)) h /\
  front (arch ++ pop1 ++ concat h) arch' /\ pop' = match h with [] => pop1 | _ => [] end.
Proof.
  intros F Fa Ha H. unfold aseea_run in H. apply rbind_ok in H as ([[par1 pop1] w1] & E1 & H). destruct (Hpe [] pop w _ _ _ (Forall_nil _) F E1) as (_ & K & Eg).
  apply rbind_ok in H as (arch1 & E4 & H). apply offer_some in E4 as [b4 E4]. destruct (updates_sub arch pop1 arch1 b4) as (U1 & U2 & U3); auto; [apply Forall_app; auto|].
  destruct (aseea_loop_ok mx fuel pop1 arch1 w1 pop' arch' h w') as (E & I2 & (b5 & I3)); auto; [apply Forall_app; auto|].
  exists pop1. split; auto. split; auto. split; auto. split; auto.
  destruct (offers_app _ _ _ _ _ _ _ E4 I3) as [b6 E6]. eapply front_offered; eauto. apply Forall_app; split; auto. apply Forall_app; split; auto.
  apply Forall_forall. intros x Hx. apply in_concat in Hx as (l & Hl & Hx). rewrite Forall_forall in I2. specialize (I2 l Hl). rewrite Forall_forall in I2. auto.
Qed.
End Aseea.
End Arch.

(** ** SPEA2 *)
Section Spea2.
Context {G A W : Type}.
Notation I := (indiv G worth).
Variable value : G -> list Q.
Variable pop_eval : list I -> list I -> W -> res (list I * list I * W).
Variable breed : A -> list I -> list I -> W -> res (list I * W).
Variables fitness diversity : A -> list I -> W -> res (A * list I * W).
Variable archive : A -> list I -> W -> res (A * W).
Variable cont : list I -> W -> res (bool * W).
Hypothesis Hpe : measures value pop_eval.
Hypothesis Hbr : forall a pop off w off' w', Forall (measured value) pop -> breed a pop off w = Ok (off', w') -> Forall (not_wrong value) off'.
(** an invariant of the archive and of the populations handed to it *)
Variable R : A -> list (list I) -> Prop.
Hypothesis Rfi : forall a h p w a' p' w', R a h -> Forall (measured value) p -> fitness a p w = Ok (a', p', w') ->
  R a' h /\ Forall (measured value) p' /\ Permutation (map (@geno G worth) p) (map (@geno G worth) p').
Hypothesis Rdi : forall a h p w a' p' w', R a h -> Forall (measured value) p -> diversity a p w = Ok (a', p', w') ->
  R a' h /\ Forall (measured value) p' /\ Permutation (map (@geno G worth) p) (map (@geno G worth) p').
Hypothesis Rar : forall a h p w a' w', R a h -> Forall (measured value) p -> archive a p w = Ok (a', w') -> R a' (h ++ [p]).

(** the next population is what was bred from the former *)
Definition born (p q : list I) : Prop := exists a off w o w', breed a p off w = Ok (o, w') /\ Permutation (map (@geno G worth) o) (map (@geno G worth) q).

Lemma spea2_loop_ok : forall fuel pop off a w fin ar h w' before, Forall (measured value) pop -> R a before ->
  spea2_loop pop_eval breed fitness diversity archive cont fuel pop off a w = Ok (fin, ar, h, w') ->
  Forall (Forall (measured value)) h /\ R ar (before ++ h) /\ (exists h0, pop :: h = h0 ++ [fin]) /\ stops_at_first_no cont (pop :: h) /\
  (forall i p q, nth_error (pop :: h) i = Some p -> nth_error h i = Some q -> born p q).
Proof.
  induction fuel as [|fuel IH]; intros pop off a w fin ar h w' before F Ra H; cbn [spea2_loop] in H; [discriminate|].
  apply rbind_ok in H as ([b w1] & E1 & H). destruct b.
  - apply rbind_ok in H as ([off1 w2] & E2 & H). apply rbind_ok in H as ([[pop2 off2] w3] & E3 & H). destruct (Hpe _ _ _ _ _ _ F (Hbr _ _ _ _ _ _ F E2) E3) as (M1 & M2 & G1 & G2).
    apply rbind_ok in H as ([[a1 pop3] w4] & E4 & H). destruct (Rfi _ _ _ _ _ _ _ Ra M2 E4) as (R1 & F1 & P1).
    apply rbind_ok in H as ([[a2 pop4] w5] & E5 & H). destruct (Rdi _ _ _ _ _ _ _ R1 F1 E5) as (R2 & F2 & P2).
    apply rbind_ok in H as ([a3 w6] & E6 & H). pose proof (Rar _ _ _ _ _ _ R2 F2 E6) as R3.
    apply rbind_ok in H as ([[[p ar'] hh] w7] & E7 & H). inversion H; subst.
    destruct (IH pop4 pop2 a3 w6 fin ar hh w' (before ++ [pop4]) F2 R3 E7) as (I1 & I2 & (h0 & I3) & I4 & I5). rewrite <- app_assoc in I2. split; auto. split; auto. split; [exists (pop :: h0); cbn; f_equal; auto|]. split.
    + intros [|i] p Hp; cbn [nth_error] in Hp.
      * inversion Hp; subst. exists w, w1. rewrite E1. f_equal.
      * destruct (I4 i p Hp) as (v & v' & Ev). exists v, v'. rewrite Ev. f_equal.
    + intros [|i] p q Hp Hq; cbn [nth_error] in Hp, Hq; [|eapply I5; eauto]. inversion Hp; inversion Hq; subst. exists a, off, w1, off1, w2. split; auto. rewrite <- G2. etransitivity; eauto.
  - inversion H; subst. rewrite app_nil_r. split; auto. split; auto. split; [exists []; auto|]. split.
    + intros [|[|i]] p Hp; cbn [nth_error] in Hp; inversion Hp; subst. exists w, w'. rewrite E1. auto.
    + intros i p q _ Hq. destruct i; discriminate.
Qed.
Lemma spea2_ok fuel pop a w fin ar h w' : Forall (not_wrong value) pop -> R a [] ->
  spea2 pop_eval breed fitness diversity archive cont fuel pop a w = Ok (fin, ar, h, w') ->
  Forall (Forall (measured value)) h /\ R ar h /\ (exists h0, h = h0 ++ [fin]) /\ (exists p h1, h = p :: h1 /\ Permutation (map (@geno G worth) pop) (map (@geno G worth) p)) /\
  stops_at_first_no cont h /\ (forall i p q, nth_error h i = Some p -> nth_error h (S i) = Some q -> born p q).
Proof.
  intros F Ra H. unfold spea2 in H. apply rbind_ok in H as ([[par1 pop1] w1] & E1 & H). destruct (Hpe [] pop w _ _ _ (Forall_nil _) F E1) as (_ & M & _ & G1).
  apply rbind_ok in H as ([[a1 pop3] w4] & E4 & H). destruct (Rfi _ _ _ _ _ _ _ Ra M E4) as (R1 & F1 & P1).
  apply rbind_ok in H as ([[a2 pop4] w5] & E5 & H). destruct (Rdi _ _ _ _ _ _ _ R1 F1 E5) as (R2 & F2 & P2).
  apply rbind_ok in H as ([a3 w6] & E6 & H). pose proof (Rar _ _ _ _ _ _ R2 F2 E6) as R3.
  apply rbind_ok in H as ([[[p ar'] hh] w7] & E7 & H). inversion H; subst.
  destruct (spea2_loop_ok fuel pop4 [] a3 w6 fin ar hh w' [pop4] F2 R3 E7) as (I1 & I2 & I3 & I4 & I5). split; auto. split; auto. split; auto.
  split; [exists pop4, hh; split; auto; rewrite <- G1; etransitivity; eauto|]. split; auto.
Qed.
End Spea2.
