(** Proofs about the hypervolume-difference indicator (C106): closed form and volumes. *)
From Coq Require Import List Bool QArith ZArith Arith Lia Lqa Permutation.
From Verif Require Import Lib Outcome BoundsModel BoundsProofs ParetoModel ParetoSpec ParetoProofs HvSpec HvProofs IndModel IndSpec.
Import ListNotations.
Close Scope Q_scope.
Open Scope nat_scope.

(** products of the first [k] values *)
Fixpoint pr (f : nat -> Q) (k : nat) : Q := match k with 0 => 1%Q | S j => (f j * pr f j)%Q end.
Definition qmin (a b : Q) : Q := if qltb b a then b else a.
Lemma qmin_spec a b : (qmin a b <= a /\ qmin a b <= b /\ (qmin a b == a \/ qmin a b == b))%Q.
Proof. unfold qmin. destruct (qltb b a) eqn:E; [apply qltb_lt in E|apply qltb_ge in E]; (split; [lra|split; [lra|]]); [right|left]; lra. Qed.
Lemma pr_ext f g : forall k, (forall i, (i < k)%nat -> f i == g i)%Q -> (pr f k == pr g k)%Q.
Proof. induction k as [|k IH]; intros H; cbn; [reflexivity|]. rewrite IH by (intros; apply H; lia). rewrite (H k) by lia. reflexivity. Qed.
Lemma pr_nonneg f : forall k, (forall i, (i < k)%nat -> 0 <= f i)%Q -> (0 <= pr f k)%Q.
Proof. induction k as [|k IH]; intros H; cbn; [lra|]. apply Qmult_le_0_compat; [apply H; lia|apply IH; intros; apply H; lia]. Qed.
Lemma pr_pos f : forall k, (forall i, (i < k)%nat -> 0 < f i)%Q -> (0 < pr f k)%Q.
Proof. induction k as [|k IH]; intros H; cbn; [lra|]. apply Qmult_lt_0_compat; [apply H; lia|apply IH; intros; apply H; lia]. Qed.
Lemma mul_mono a b c d : (0 <= a -> a <= b -> 0 <= c -> c <= d -> a * c <= b * d)%Q.
Proof. intros. nra. Qed.
Lemma pr_mono f g : forall k, (forall i, (i < k)%nat -> 0 <= f i /\ f i <= g i)%Q -> (pr f k <= pr g k)%Q.
Proof.
  induction k as [|k IH]; intros H; cbn; [lra|]. destruct (H k) as [A B]; [lia|]. assert (N : (0 <= pr f k)%Q) by (apply pr_nonneg; intros i Hi; apply H; lia).
  assert (M : (pr f k <= pr g k)%Q) by (apply IH; intros; apply H; lia). apply mul_mono; auto.
Qed.
Lemma pr_strict f g : forall k, (forall i, (i < k)%nat -> 0 < f i /\ f i <= g i)%Q -> (exists i, (i < k)%nat /\ f i < g i)%Q -> (pr f k < pr g k)%Q.
Proof.
  induction k as [|k IH]; intros H (i & Hi & Hlt); [lia|]. cbn [pr]. destruct (H k) as [A B]; [lia|].
  assert (P : (0 < pr f k)%Q) by (apply pr_pos; intros; apply H; lia). assert (M : (pr f k <= pr g k)%Q) by (apply pr_mono; intros j Hj; destruct (H j); [lia|]; split; lra).
  destruct (Nat.eq_dec i k) as [->|Hne]; [nra|].
  assert ((pr f k < pr g k)%Q) by (apply IH; [intros; apply H; lia|exists i; split; auto; lia]). nra.
Qed.
Lemma pr_le1 f : forall k, (forall i, (i < k)%nat -> 0 <= f i /\ f i <= 1)%Q -> (pr f k <= 1)%Q.
Proof.
  intros k H. assert (E : (pr (fun _ => 1) k == 1)%Q) by (clear; induction k; cbn; [reflexivity|rewrite IHk; reflexivity]). rewrite <- E. apply pr_mono. auto.
Qed.

(** ** closed form *)
Definition sidef (rho : Q) (bs : list bound) (o : vec) (i : nat) : Q :=
  let b := nth i bs (0, 1)%Q in ((fst b + rho * snd b - nth i o 0) / (rho * snd b))%Q.
Definition fits (rho : Q) (bs : list bound) (o : vec) (k : nat) : Prop :=
  forall i, i < k -> exists b x, nth_error bs i = Some b /\ nth_error o i = Some x /\ (0 < rho * snd b)%Q /\ (x <= fst b + rho * snd b)%Q.
Lemma div_pos a b : (0 < b -> 0 <= a -> 0 <= a / b)%Q.
Proof. intros. apply Qle_shift_div_l; auto. lra. Qed.
Lemma hypervolume_ok rho bs o1 o2 : forall k, fits rho bs o1 (S k) -> fits rho bs o2 (S k) ->
  (exists v, hypervolume rho bs o1 o2 k true = Ok v /\ (v == pr (sidef rho bs o1) (S k))%Q) /\
  (exists v, hypervolume rho bs o1 o2 k false = Ok v /\ (v == pr (sidef rho bs o1) (S k) - pr (fun i => qmin (sidef rho bs o1 i) (sidef rho bs o2 i)) (S k))%Q).
Proof.
  induction k as [|k IH]; intros F1 F2.
  - destruct (F1 0 ltac:(lia)) as ([mn rg] & x & Eb & Ex & Hp & Hx). destruct (F2 0 ltac:(lia)) as (b' & y & Eb' & Ey & _ & Hy). assert (b' = (mn, rg)) as -> by congruence. cbn [fst snd] in *.
    cbn [hypervolume pr]. unfold sidef. rewrite Eb, Ex, Ey, (nth_error_nth _ _ _ Eb), (nth_error_nth _ _ _ Ex), (nth_error_nth _ _ _ Ey). cbn [of_opt rbind fst snd].
    set (R := (rho * rg)%Q) in *. split.
    + destruct (qltb x (mn + R)) eqn:E; [apply qltb_lt in E|apply qltb_ge in E]; eexists; (split; [reflexivity|]); [field; lra|]. assert (x == mn + R)%Q as -> by lra. field. lra.
    + assert (D : ((mn + R - x) / R - (mn + R - y) / R == (y - x) / R)%Q) by (field; lra).
      destruct (qltb x y) eqn:E; [apply qltb_lt in E|apply qltb_ge in E]; eexists; (split; [reflexivity|]).
      * assert (P : (0 <= (y - x) / R)%Q) by (apply div_pos; lra). destruct (qmin_spec ((mn + R - x) / R) ((mn + R - y) / R)) as (A & B & [C|C]); rewrite C in *; lra.
      * assert (P : (0 <= (x - y) / R)%Q) by (apply div_pos; lra). assert (D' : ((y - x) / R == - ((x - y) / R))%Q) by (field; lra).
        destruct (qmin_spec ((mn + R - x) / R) ((mn + R - y) / R)) as (A & B & [C|C]); rewrite C in *; lra.
  - destruct IH as [(vt & Et & Vt) (vf & Ef & Vf)]; [intros i Hi; apply F1; lia|intros i Hi; apply F2; lia|].
    destruct (F1 (S k) ltac:(lia)) as ([mn rg] & x & Eb & Ex & Hp & Hx). destruct (F2 (S k) ltac:(lia)) as (b' & y & Eb' & Ey & _ & Hy). assert (b' = (mn, rg)) as -> by congruence. cbn [fst snd] in *.
    set (A1 := pr (sidef rho bs o1) (S k)) in *. set (M1 := pr (fun i => qmin (sidef rho bs o1 i) (sidef rho bs o2 i)) (S k)) in *.
    assert (S1 : sidef rho bs o1 (S k) = ((mn + rho * rg - x) / (rho * rg))%Q) by (unfold sidef; rewrite (nth_error_nth _ _ _ Eb), (nth_error_nth _ _ _ Ex); auto).
    assert (S2 : sidef rho bs o2 (S k) = ((mn + rho * rg - y) / (rho * rg))%Q) by (unfold sidef; rewrite (nth_error_nth _ _ _ Eb), (nth_error_nth _ _ _ Ey); auto).
    change (pr (sidef rho bs o1) (S (S k))) with (sidef rho bs o1 (S k) * A1)%Q.
    change (pr (fun i => qmin (sidef rho bs o1 i) (sidef rho bs o2 i)) (S (S k))) with (qmin (sidef rho bs o1 (S k)) (sidef rho bs o2 (S k)) * M1)%Q.
    rewrite S1, S2. cbn [hypervolume]. rewrite Eb, Ex, Ey. cbn [of_opt rbind fst snd]. set (R := (rho * rg)%Q) in *. split.
    + destruct (qltb x (mn + R)) eqn:E; [apply qltb_lt in E|apply qltb_ge in E].
      * rewrite Et. cbn [rbind]. rewrite Ef. cbn [rbind]. eexists; split; [reflexivity|]. rewrite Vt. field. lra.
      * rewrite Ef. cbn [rbind]. eexists; split; [reflexivity|]. assert (mn + R - x == 0)%Q as -> by lra. field. lra.
    + assert (D : ((mn + R - x) / R - (mn + R - y) / R == (y - x) / R)%Q) by (field; lra).
      destruct (qltb x y) eqn:E; [apply qltb_lt in E|apply qltb_ge in E].
      * rewrite Et. cbn [rbind]. rewrite Ef. cbn [rbind]. eexists; split; [reflexivity|].
        assert (P : (0 <= (y - x) / R)%Q) by (apply div_pos; lra).
        assert (Q : (qmin ((mn + R - x) / R) ((mn + R - y) / R) == (mn + R - y) / R)%Q) by (destruct (qmin_spec ((mn + R - x) / R) ((mn + R - y) / R)) as (A & B & [C|C]); rewrite C in *; lra).
        rewrite Q, Vt, Vf. field. lra.
      * rewrite Ef. cbn [rbind]. eexists; split; [reflexivity|].
        assert (P : (0 <= (x - y) / R)%Q) by (apply div_pos; lra). assert (D' : ((y - x) / R == - ((x - y) / R))%Q) by (field; lra).
        assert (Q : (qmin ((mn + R - x) / R) ((mn + R - y) / R) == (mn + R - x) / R)%Q) by (destruct (qmin_spec ((mn + R - x) / R) ((mn + R - y) / R)) as (A & B & [C|C]); rewrite C in *; lra).
        rewrite Q, Vf. field. lra.
Qed.

(** ** volumes of one box and of two boxes *)
Fixpoint box (m : nat -> nat) (k : nat) : list (list nat) := match k with 0 => [[]] | S j => stack (seq 0 (m j)) (box m j) end.
Lemma box_In m : forall k c, In c (box m k) <-> length c = k /\ forall i a, nth_error c i = Some a -> a < m i.
Proof.
  induction k as [|k IH]; intros c.
  - cbn. split; [intros [<-|[]]; split; auto; intros [|i] a; discriminate|]. intros [H _]. destruct c; [auto|discriminate].
  - cbn [box]. split.
    + intros H. destruct (stack_shape _ _ _ H) as (c' & h & ->). apply stack_In in H as [Hh Hc]. apply in_seq in Hh. apply IH in Hc as [L Hc]. split; [rewrite app_length; cbn; lia|].
      intros i a Hi. destruct (Nat.lt_ge_cases i (length c')) as [Hl|Hg].
      * rewrite nth_error_app1 in Hi by auto. auto.
      * rewrite nth_error_app2 in Hi by auto. destruct (i - length c') as [|q] eqn:Eq; [|destruct q; discriminate]. injection Hi as <-. assert (i = k) as -> by lia. lia.
    + intros [L H]. destruct (@exists_last _ c) as (c' & h & ->); [intros ->; discriminate|]. rewrite app_length in L. cbn in L. apply stack_In. split.
      * apply in_seq. split; [lia|]. specialize (H (length c') h). rewrite nth_error_app2, Nat.sub_diag in H by lia. specialize (H eq_refl). replace k with (length c') by lia. lia.
      * apply IH. split; [lia|]. intros i a Hi. apply H. rewrite nth_error_app1; auto. apply nth_error_Some. congruence.
Qed.
Lemma box_NoDup m : forall k, NoDup (box m k).
Proof. induction k as [|k IH]; cbn [box]; [constructor; [intros []|constructor]|]. apply stack_NoDup; auto. apply seq_NoDup. Qed.
Lemma box_count g (p : nat -> Q) m : 0 < g -> forall k, (forall i, (i < k)%nat -> p i * natQ g == natQ (m i))%Q -> (pr p k * natQ g ^ Z.of_nat k == natQ (length (box m k)))%Q.
Proof.
  intros Hg. induction k as [|k IH]; intros H; [reflexivity|]. cbn [box]. rewrite pow_S by auto. cbn [pr]. rewrite stack_length, seq_length, natQ_mul, <- IH by (intros; apply H; lia).
  rewrite <- (H k) by lia. ring.
Qed.
Lemma box_union m1 m2 k : exists cells, NoDup cells /\ (forall c, In c cells <-> In c (box m1 k) \/ In c (box m2 k)) /\
  length cells + length (box (fun i => Nat.min (m1 i) (m2 i)) k) = length (box m1 k) + length (box m2 k).
Proof.
  assert (dec : forall a b : list nat, {a = b} + {a <> b}) by (apply list_eq_dec, Nat.eq_dec).
  set (inb := fun c => if in_dec dec c (box m1 k) then true else false). exists (box m1 k ++ filter (fun c => negb (inb c)) (box m2 k)). split; [|split].
  - apply NoDup_app_in; [apply box_NoDup|apply NoDup_filter, box_NoDup|]. intros c H1 H2. apply filter_In in H2 as [_ H2]. unfold inb in H2. destruct (in_dec dec c (box m1 k)); [discriminate|auto].
  - intros c. rewrite in_app_iff, filter_In. unfold inb. destruct (in_dec dec c (box m1 k)); cbn; intuition discriminate.
  - rewrite app_length.
    assert (P : length (filter inb (box m2 k)) = length (box (fun i => Nat.min (m1 i) (m2 i)) k)).
    { apply Permutation_length, NoDup_Permutation; [apply NoDup_filter, box_NoDup|apply box_NoDup|]. intros c. rewrite filter_In. unfold inb.
      destruct (in_dec dec c (box m1 k)) as [i|i]; rewrite !box_In in *.
      - split; [intros [[L H] _]|intros [L H]; split; auto]; split; auto; intros j a Hj; [destruct i as [_ i]; specialize (i j a Hj); specialize (H j a Hj); lia|specialize (H j a Hj); lia].
      - split; [intros [_ ?]; discriminate|]. intros [L H]. destruct i. split; auto. intros j a Hj. specialize (H j a Hj). lia. }
    assert (T : forall l, length (filter (fun c => negb (inb c)) l) + length (filter inb l) = length l).
    { clear. induction l as [|c l IH]; cbn; auto. destruct (inb c); cbn; lia. }
    specialize (T (box m2 k)). lia.
Qed.
(** a point given by its coordinates *)
Definition sides_are (p : list Q) (f : nat -> Q) (k : nat) : Prop := forall i, i < k -> exists x, nth_error p i = Some x /\ (x == f i)%Q.
Lemma grid_index g k p f P : on_grid g k P -> In p P -> sides_are p f k -> exists m, forall i, (i < k)%nat -> (f i * natQ g == natQ (m i))%Q.
Proof.
  intros [Hg H] Hp Hs. assert (G : forall j, j <= k -> exists m, forall i, i < j -> (f i * natQ g == natQ (m i))%Q).
  { induction j as [|j IH]; intros Hj; [exists (fun _ => 0); intros; lia|]. destruct IH as [m Hm]; [lia|]. destruct (H p j Hp ltac:(lia)) as (x & n & Ex & En).
    destruct (Hs j ltac:(lia)) as (x' & Ex' & Ef). assert (x' = x) as -> by congruence. exists (fun i => if i =? j then n else m i). intros i Hi.
    destruct (Nat.eqb_spec i j) as [->|]; [rewrite <- Ef; auto|apply Hm; lia]. }
  apply (G k). auto.
Qed.
Lemma cell_box g k p f m c : 0 < g -> sides_are p f k -> (forall i, (i < k)%nat -> f i * natQ g == natQ (m i))%Q -> length c = k ->
  ((forall i a x, nth_error c i = Some a -> nth_error p i = Some x -> (natQ a + 1 <= x * natQ g)%Q) <-> In c (box m k)).
Proof.
  intros Hg Hs Hm L. rewrite box_In. split.
  - intros H. split; auto. intros i a Ha. assert (i < k) by (rewrite <- L; apply nth_error_Some; congruence). destruct (Hs i ltac:(lia)) as (x & Ex & Ef).
    specialize (H i a x Ha Ex). rewrite Ef, Hm, <- natQ_S in H by lia. apply natQ_le in H. lia.
  - intros [_ H] i a x Ha Ex. assert (i < k) by (rewrite <- L; apply nth_error_Some; congruence). destruct (Hs i ltac:(lia)) as (x' & Ex' & Ef). assert (x' = x) as -> by congruence.
    rewrite Ef, Hm, <- natQ_S by lia. apply natQ_le. specialize (H i a Ha). lia.
Qed.
Lemma sides_orthant k ps : (forall p, In p ps -> exists f, sides_are p f k /\ forall i, (i < k)%nat -> (0 <= f i)%Q) -> in_orthant k ps.
Proof. intros H p i Hp Hi. destruct (H p Hp) as (f & Hs & Hn). destruct (Hs i Hi) as (x & Ex & Ef). exists x. split; auto. rewrite Ef. auto. Qed.
Lemma one_box k p f : sides_are p f k -> (forall i, (i < k)%nat -> 0 <= f i)%Q -> is_hypervolume k [p] (pr f k).
Proof.
  intros Hs Hn. split; [apply grid_exists, sides_orthant; intros q [<-|[]]; exists f; auto|]. intros g Hg. pose proof (proj1 Hg) as Hg0.
  destruct (grid_index g k p f [p] Hg ltac:(left; auto) Hs) as (m & Hm). exists (box m k). split; [apply box_NoDup|]. split; [|apply box_count; auto].
  intros c. unfold cell_inside. split.
  - intros H. pose proof (proj1 (proj1 (box_In m k c) H)) as L. split; auto. exists p. split; [left; auto|]. apply (cell_box g k p f m c); auto.
  - intros (L & q & [<-|[]] & H). apply (cell_box g k p f m c); auto.
Qed.
Lemma two_boxes k p1 p2 f1 f2 : sides_are p1 f1 k -> sides_are p2 f2 k -> (forall i, (i < k)%nat -> 0 <= f1 i)%Q -> (forall i, (i < k)%nat -> 0 <= f2 i)%Q ->
  is_hypervolume k [p1; p2] (pr f1 k + pr f2 k - pr (fun i => qmin (f1 i) (f2 i)) k)%Q.
Proof.
  intros S1 S2 N1 N2. split; [apply grid_exists, sides_orthant; intros q [<-|[<-|[]]]; [exists f1|exists f2]; auto|]. intros g Hg. pose proof (proj1 Hg) as Hg0.
  destruct (grid_index g k p1 f1 _ Hg ltac:(left; auto) S1) as (m1 & H1). destruct (grid_index g k p2 f2 _ Hg ltac:(right; left; auto) S2) as (m2 & H2).
  destruct (box_union m1 m2 k) as (cells & Hn & Hin & Hl). exists cells. split; [auto|]. split.
  - intros c. rewrite Hin. unfold cell_inside. split.
    + intros [H|H]; pose proof (proj1 (proj1 (box_In _ k c) H)) as L; (split; [auto|]); [exists p1|exists p2]; (split; [cbn; auto|]); [apply (cell_box g k p1 f1 m1 c)|apply (cell_box g k p2 f2 m2 c)]; auto.
    + intros (L & q & [<-|[<-|[]]] & H); [left; apply (cell_box g k p1 f1 m1 c)|right; apply (cell_box g k p2 f2 m2 c)]; auto.
  - assert (Hm : (pr (fun i => qmin (f1 i) (f2 i)) k * natQ g ^ Z.of_nat k == natQ (length (box (fun i => Nat.min (m1 i) (m2 i)) k)))%Q).
    { apply box_count; auto. intros i Hi. specialize (H1 i Hi). specialize (H2 i Hi). pose proof (natQ_pos g Hg0) as Gp. unfold qmin. destruct (qltb (f2 i) (f1 i)) eqn:E; [apply qltb_lt in E|apply qltb_ge in E].
      - assert (natQ (m2 i) < natQ (m1 i))%Q as X by (rewrite <- H1, <- H2; apply Qmult_lt_compat_r; auto). apply natQ_lt in X. rewrite Nat.min_r by lia. auto.
      - assert (natQ (m1 i) <= natQ (m2 i))%Q as X by (rewrite <- H1, <- H2; apply Qmult_le_compat_r; lra). apply natQ_le in X. rewrite Nat.min_l by lia. auto. }
    pose proof (box_count g f1 m1 Hg0 k H1) as C1. pose proof (box_count g f2 m2 Hg0 k H2) as C2.
    assert (Hl' : (natQ (length cells) + natQ (length (box (fun i => Nat.min (m1 i) (m2 i)) k)) == natQ (length (box m1 k)) + natQ (length (box m2 k)))%Q) by (rewrite <- !natQ_add, Hl; reflexivity).
    rewrite <- Hm, <- C1, <- C2 in Hl'. lra.
Qed.
