From Coq Require Import ZArith QArith Qround Qabs List Bool Arith Lia Lqa.
From Verif Require Import Lib Outcome BoundsModel BoundsSpec BoundsProofs RealModel RealSpec.
From Coq Require Import List.
Import ListNotations.
Open Scope Q_scope.

Definition good (r : rand) : Prop := unit_numbers (us r).
Lemma uniform_ok r u r' : uniform r = Ok (u, r') -> us r = u :: us r' /\ zs r' = zs r.
Proof. unfold uniform. destruct (us r) eqn:E; [discriminate|]. intros H. injection H as <- <-. cbn. auto. Qed.
Lemma uniform_good r u r' : good r -> uniform r = Ok (u, r') -> good r' /\ 0 <= u < 1.
Proof. intros G H. apply uniform_ok in H as (H & _). unfold good in *. rewrite H in G. inversion G; subst. auto. Qed.
Lemma normal_good r u r' : good r -> normal r = Ok (u, r') -> good r'.
Proof. unfold normal. destruct (zs r); [discriminate|]. intros G H. injection H as <- <-. auto. Qed.
Lemma flip_good p r u r' : good r -> flip p r = Ok (u, r') -> good r'.
Proof. unfold flip. intros G H. apply rbind_ok in H as ([u0 r0] & H0 & H). injection H as <- <-. eapply uniform_good; eauto. Qed.
Lemma random_good m r u r' : good r -> random m r = Ok (u, r') -> good r' /\ (0 < m -> u < m)%nat.
Proof.
  unfold random. intros G H. apply rbind_ok in H as ([u0 r0] & H0 & H). assert (Eu : u = Z.to_nat (Qfloor (u0 * inject_Z (Z.of_nat m)))) by congruence. assert (r0 = r') by congruence. subst r0 u.
  destruct (uniform_good _ _ _ G H0) as (G' & L1 & L2). split; auto.
  intros Hm. assert (Qfloor (u0 * inject_Z (Z.of_nat m)) < Z.of_nat m)%Z; [|lia]. 
  assert (K := Qfloor_le (u0 * inject_Z (Z.of_nat m))). rewrite Zlt_Qlt. eapply Qle_lt_trans; [exact K|].
  assert (0 < inject_Z (Z.of_nat m)) by (rewrite <- (Zlt_Qlt 0); lia). nra.
Qed.
Lemma qeqb_true a b : Qeq_bool a b = true <-> a == b.
Proof. apply Qeq_bool_iff. Qed.
Lemma qeqb_false a b : Qeq_bool a b = false <-> ~ a == b.
Proof. rewrite <- Qeq_bool_iff. destruct (Qeq_bool a b); split; congruence. Qed.
Ltac qcase a b := let E := fresh "E" in destruct (qltb a b) eqn:E; [apply qltb_lt in E|apply qltb_ge in E].
Lemma max_spec a b : std_max a b == a /\ b <= a \/ std_max a b == b /\ a <= b.
Proof. unfold std_max. qcase a b; [right|left]; split; lra. Qed.
Lemma min_spec a b : std_min a b == a /\ a <= b \/ std_min a b == b /\ b <= a.
Proof. unfold std_min. qcase b a; [right|left]; split; lra. Qed.

(** folding *)
Lemma far_spec x : far x = false -> Qabs x <= 1000000000.
Proof.
  unfold far. intros H. apply orb_false_iff in H as [H1 H2]. apply qltb_ge in H1. apply qltb_ge in H2. apply Qabs_case; intros; lra.
Qed.
Lemma far_spec' x : far x = true -> 1000000000 < Qabs x.
Proof.
  unfold far. intros H. apply orb_true_iff in H as [H|H]; apply qltb_lt in H; apply Qabs_case; intros; lra.
Qed.
Lemma fold_at_inside b x r y r' : proper b -> good r -> fold_at b x r = Ok (y, r') -> good r' /\ inside b y /\ (far x = false -> inside b x -> y == x).
Proof.
  intros P G H. destruct b as [|mn mx|mn|mx]; cbn [fold_at] in H.
  - apply rbind_ok in H as (y0 & H & K). injection K as -> <-. cbn in H. injection H as <-. split; auto. split; [exact Logic.I|]. intros; reflexivity.
  - destruct (far x) eqn:Fx.
    + apply rbind_ok in H as ([u r0] & Hu & H). apply rbind_ok in H as (y0 & H & K). injection K as -> <-.
      destruct (uniform_good _ _ _ G Hu) as (G' & U1 & U2). split; auto. split; [|discriminate]. apply far_spec' in Fx. cbn in P.
      refine (fold_far mn mx x ((mx - mn) * u) y P Fx _ _ H); nra.
    + apply rbind_ok in H as (y0 & H & K). injection K as -> <-. split; auto. apply far_spec in Fx.
      destruct (fold_exact _ _ _ _ _ P Fx H) as (I & _ & S). split; auto. cbn. intros _ Q. rewrite (S Q). reflexivity.
  - apply rbind_ok in H as (y0 & H & K). injection K as -> <-. cbn [fold] in H. injection H as <-. split; auto. cbn [inside]. qcase x mn; split; intros; lra.
  - apply rbind_ok in H as (y0 & H & K). injection K as -> <-. cbn [fold] in H. injection H as <-. split; auto. cbn [inside]. qcase mx x; split; intros; lra.
Qed.

(** loops *)
Section Each.
Context {A : Type}.
Lemma each_inv (P : A -> Prop) (R : nat -> Q -> Q -> Prop) f : (forall i x a y a', P a -> f i x a = Ok (y, a') -> P a' /\ R i x y) ->
  forall v i a v' a', P a -> each f i v a = Ok (v', a') ->
  P a' /\ length v' = length v /\ forall j x y, nth_error v j = Some x -> nth_error v' j = Some y -> R (i + j)%nat x y.
Proof.
  intros F. induction v as [|x v IH]; intros i a v' a' Pa H; cbn [each] in H.
  - injection H as <- <-. repeat split; auto. intros [|j]; discriminate.
  - apply rbind_ok in H as ([y a1] & H1 & H). apply rbind_ok in H as ([v1 a2] & H2 & H). injection H as <- <-.
    destruct (F _ _ _ _ _ Pa H1) as (P1 & R1). destruct (IH _ _ _ _ P1 H2) as (P2 & L & R2). split; auto. split; [cbn; lia|].
    intros [|j] x' y' Hx Hy; cbn in Hx, Hy; [injection Hx as <-; injection Hy as <-; rewrite Nat.add_0_r; auto|].
    replace (i + S j)%nat with (S i + j)%nat by lia. eauto.
Qed.
Lemma each2_inv (P : A -> Prop) (R : nat -> Q -> Q -> Q -> Q -> Prop) f :
  (forall i x y a x' y' a', P a -> f i x y a = Ok (x', y', a') -> P a' /\ R i x y x' y') ->
  forall v w i a v' w' a', P a -> each2 f i v w a = Ok (v', w', a') ->
  P a' /\ length v' = length v /\ length w' = length w /\ (length v <= length w)%nat /\
  (forall j x y x' y', nth_error v j = Some x -> nth_error w j = Some y -> nth_error v' j = Some x' -> nth_error w' j = Some y' -> R (i + j)%nat x y x' y') /\
  skipn (length v) w' = skipn (length v) w.
Proof.
  intros F. induction v as [|x v IH]; intros w i a v' w' a' Pa H; cbn [each2] in H.
  - injection H as <- <- <-. split; auto. split; auto. split; auto. split; [cbn; lia|]. split; auto. intros [|j]; discriminate.
  - destruct w as [|y w]; [discriminate|]. apply rbind_ok in H as ([[x1 y1] a1] & H1 & H). apply rbind_ok in H as ([[v1 w1] a2] & H2 & H).
    injection H as <- <- <-. destruct (F _ _ _ _ _ _ _ Pa H1) as (P1 & R1). destruct (IH _ _ _ _ _ _ P1 H2) as (P2 & L1 & L2 & L3 & R2 & S2).
    split; auto. split; [cbn; lia|]. split; [cbn; lia|]. split; [cbn; lia|]. split; [|cbn; auto].
    intros [|j] x' y' x'' y'' Hx Hy Hx' Hy'; cbn in Hx, Hy, Hx', Hy'.
    + injection Hx as <-. injection Hy as <-. injection Hx' as <-. injection Hy' as <-. rewrite Nat.add_0_r. auto.
    + replace (i + S j)%nat with (S i + j)%nat by lia. eauto.
Qed.
(** enough draws *)
Lemma each_total (len : A -> nat) (Pre : nat -> Prop) k f : (forall i x a, Pre i -> (k <= len a)%nat -> exists y a', f i x a = Ok (y, a') /\ (len a <= k + len a')%nat) ->
  forall v i a, (forall j, (j < length v)%nat -> Pre (i + j)%nat) -> (k * length v <= len a)%nat -> exists v' a', each f i v a = Ok (v', a') /\ (len a <= k * length v + len a')%nat.
Proof.
  intros F. induction v as [|x v IH]; intros i a Pr L; cbn [each].
  - exists [], a. split; auto. lia.
  - cbn [length] in L. destruct (F i x a) as (y & a1 & H1 & L1); [rewrite <- (Nat.add_0_r i); apply Pr; cbn; lia|lia|]. rewrite H1. cbn [rbind].
    destruct (IH (S i) a1) as (v1 & a2 & H2 & L2); [intros j Hj; replace (S i + j)%nat with (i + S j)%nat by lia; apply Pr; cbn; lia|lia|]. rewrite H2. cbn [rbind].
    exists (y :: v1), a2. split; auto. cbn [length]. lia.
Qed.
Lemma each2_total (len : A -> nat) (Pre : nat -> Prop) k f : (forall i x y a, Pre i -> (k <= len a)%nat -> exists x' y' a', f i x y a = Ok (x', y', a') /\ (len a <= k + len a')%nat) ->
  forall v w i a, (length v <= length w)%nat -> (forall j, (j < length v)%nat -> Pre (i + j)%nat) -> (k * length v <= len a)%nat ->
  exists v' w' a', each2 f i v w a = Ok (v', w', a') /\ (len a <= k * length v + len a')%nat.
Proof.
  intros F. induction v as [|x v IH]; intros w i a Lw Pr L; cbn [each2].
  - exists [], w, a. split; auto. lia.
  - cbn [length] in L, Lw. destruct w as [|y w]; [cbn in Lw; lia|]. cbn [length] in Lw. destruct (F i x y a) as (x' & y' & a1 & H1 & L1); [rewrite <- (Nat.add_0_r i); apply Pr; cbn; lia|lia|]. rewrite H1. cbn [rbind].
    destruct (IH w (S i) a1) as (v1 & w1 & a2 & H2 & L2); [lia|intros j Hj; replace (S i + j)%nat with (i + S j)%nat by lia; apply Pr; cbn; lia|lia|]. rewrite H2. cbn [rbind].
    do 3 eexists. split; [reflexivity|]. cbn [length]. lia.
Qed.
End Each.

(** uniform mutation *)
Lemma in_range_ok b e x u : not_empty b -> 0 <= e -> inside b x -> 0 <= u < 1 -> inside b (in_range b e x u) /\ Qabs (in_range b e x u - x) <= e.
Proof.
  intros N He I U. unfold in_range. destruct b as [|mn mx|mn|mx]; cbn [lower upper inside not_empty] in *;
    repeat match goal with |- context [std_max ?a ?b] => let M := fresh "M" in assert (M := max_spec a b); set (std_max a b) in * end;
    repeat match goal with |- context [std_min ?a ?b] => let M := fresh "M" in assert (M := min_spec a b); set (std_min a b) in * end;
    (split; [try split; nra|apply Qabs_case; intros; nra]) || idtac.
  all: split; [auto|apply Qabs_case; intros; nra].
Qed.
