(** MaxSAT. *)
From Coq Require Import List Arith Bool ZArith Lia Permutation.
From Verif Require Import Outcome Lib NeighModel NeighSpec NeighProofs BitsModel LsModel EvalModel EvalSpec EvalProofs EvalRoyal EvalQap.
From Coq Require Import List.
Import ListNotations.
Open Scope nat_scope.

Lemma for_in_ext {A B} (f g : A -> B -> res B) : forall l, (forall k acc, In k l -> f k acc = g k acc) -> forall acc, for_in l f acc = for_in l g acc.
Proof.
  induction l as [|k l IH]; intros H acc; cbn [for_in]; auto. rewrite H by (left; auto). destruct (g k acc); cbn [rbind]; auto. apply IH. intros. apply H. right. auto.
Qed.
Lemma clause_eval_ok x : forall c, (forall l, In l c -> (l <> 0 /\ Z.abs l <= Z.of_nat (length x))%Z) -> clause_eval c x = Ok (existsb (literal_true x) c).
Proof.
  induction c as [|l c IH]; intros H; cbn [clause_eval existsb]; auto. destruct (H l) as [H1 H2]; [left; auto|].
  assert (E : (if (0 <? l)%Z then gene x (Z.to_nat l - 1) else if (l <? 0)%Z then let! b := gene x (Z.to_nat (- l) - 1) in Ok (negb b) else Ok false) = Ok (literal_true x l)).
  { unfold literal_true. destruct (Z.ltb_spec 0 l).
    - apply gene_ok. lia.
    - destruct (Z.ltb_spec l 0); [|lia]. rewrite (gene_ok x _ false) by lia. reflexivity. }
  rewrite E. cbn [rbind]. destruct (literal_true x l); cbn [orb]; auto. apply IH. intros. apply H. right. auto.
Qed.
Section Sat.
Variables (n : nat) (clauses : list (list Z)).
Hypothesis CNF : cnf n clauses.
Lemma clause_in i : In (nth i clauses []) clauses \/ nth i clauses [] = [].
Proof. destruct (Nat.lt_ge_cases i (length clauses)); [left; apply nth_In; auto|right; apply nth_overflow; auto]. Qed.
Lemma literals_ok i l : In l (nth i clauses []) -> (l <> 0 /\ Z.abs l <= Z.of_nat n)%Z.
Proof. intros H. destruct (clause_in i) as [Hc|Hc]; [apply (CNF _ Hc); auto|rewrite Hc in H; destruct H]. Qed.
Lemma literals_distinct i : NoDup (map Z.abs (nth i clauses [])).
Proof. destruct (clause_in i) as [Hc|Hc]; [apply (CNF _ Hc)|rewrite Hc; constructor]. Qed.
Definition sat (x : list bool) (i : nat) : bool := existsb (literal_true x) (nth i clauses []).
Lemma clause_ok x i : length x = n -> clause_eval (nth i clauses []) x = Ok (sat x i).
Proof. intros L. apply clause_eval_ok. rewrite L. intros l. apply literals_ok. Qed.
Lemma filter_zsum {A} (f : A -> bool) (d : A) l : Z.of_nat (length (filter f l)) = zsum (seq 0 (length l)) (fun i => Z.b2z (f (nth i l d))).
Proof.
  induction l as [|a l IH]; auto. cbn [length seq]. rewrite zsum_cons, <- seq_shift, zsum_map. cbn [nth filter]. rewrite <- IH. destruct (f a); cbn [length Z.b2z]; lia.
Qed.
Lemma satisfied_sum x : satisfied clauses x = zsum (seq 0 (length clauses)) (fun i => Z.b2z (sat x i)).
Proof. apply filter_zsum. Qed.
Lemma sat_eval_ok x : length x = n -> sat_eval clauses x = Ok (satisfied clauses x).
Proof.
  intros L. unfold sat_eval. rewrite satisfied_sum, (for_in_sum _ (fun i => Z.b2z (sat x i))); [reflexivity|]. intros i acc Hi. apply in_seq in Hi.
  rewrite (gene_ok clauses i []) by lia. cbn [rbind]. rewrite clause_ok by auto. cbn [rbind]. destruct (sat x i); cbn [Z.b2z]; f_equal; lia.
Qed.
(** ** the table of occurrences *)
Definition occurrences : list (nat * Z) := flat_map (fun i => map (pair i) (nth i clauses [])) (seq 0 (length clauses)).
Definition signed (p : nat * Z) : Z := if (snd p <? 0)%Z then (- Z.of_nat (fst p))%Z else Z.of_nat (fst p).
Definition of_var (v : nat) (p : nat * Z) : bool := Z.to_nat (Z.abs (snd p)) =? v.
Lemma occ_In i l : In (i, l) occurrences <-> i < length clauses /\ In l (nth i clauses []).
Proof.
  unfold occurrences. rewrite in_flat_map. split.
  - intros (j & Hj & Hin). apply in_map_iff in Hin as (k & E & Hk). injection E as <- <-. apply in_seq in Hj. split; [lia|auto].
  - intros [H1 H2]. exists i. split; [apply in_seq; lia|]. apply in_map. auto.
Qed.
Lemma occ_random_ok : exists vs, occ_random clauses n = Ok vs /\ length vs = S n /\ forall v, v <= n -> nth v vs [] = map signed (filter (of_var v) occurrences).
Proof.
  unfold occ_random.
  rewrite (for_in_ext _ (fun i vs => for_in (nth i clauses []) (fun l vs => if (l <? 0)%Z then push_occ (Z.to_nat (- l)) (- Z.of_nat i)%Z vs else push_occ (Z.to_nat l) (Z.of_nat i) vs) vs)).
  2:{ intros i vs Hi. apply in_seq in Hi. rewrite (gene_ok clauses i []) by lia. reflexivity. }
  rewrite (for_in_nested (fun i => nth i clauses []) (fun i l vs => if (l <? 0)%Z then push_occ (Z.to_nat (- l)) (- Z.of_nat i)%Z vs else push_occ (Z.to_nat l) (Z.of_nat i) vs)).
  fold occurrences.
  destruct (for_in_inv (fun pre vs => length vs = S n /\ forall v, v <= n -> nth v vs [] = map signed (filter (of_var v) pre))
     (fun p vs => if (snd p <? 0)%Z then push_occ (Z.to_nat (- snd p)) (- Z.of_nat (fst p))%Z vs else push_occ (Z.to_nat (snd p)) (Z.of_nat (fst p)) vs) occurrences [] (repeat [] (S n))) as (vs & E & L & H).
  - split; [apply repeat_length|]. intros v Hv. cbn [filter map]. apply nth_repeat.
  - intros p [i l] r vs Eq [L H]. cbn [app] in Eq. cbn [fst snd]. assert (Hin : In (i, l) occurrences) by (rewrite Eq; apply in_or_app; right; left; auto). apply occ_In in Hin as [_ Hin]. apply literals_ok in Hin as [H1 H2].
    assert (Eb : (if (l <? 0)%Z then push_occ (Z.to_nat (- l)) (- Z.of_nat i)%Z vs else push_occ (Z.to_nat l) (Z.of_nat i) vs) = push_occ (Z.to_nat (Z.abs l)) (signed (i, l)) vs).
    { unfold signed. cbn [fst snd]. destruct (Z.ltb_spec l 0); do 2 f_equal; lia. }
    rewrite Eb. set (w := Z.to_nat (Z.abs l)). assert (Hw : w <= n) by lia. unfold push_occ. rewrite (nth_error_nth' vs []) by lia. cbn [obind]. rewrite upd_set by lia. eexists. split; [reflexivity|].
    split; [rewrite set_length; auto|]. intros v Hv. rewrite nth_set by lia. rewrite filter_app, map_app. cbn [filter]. unfold of_var at 2. cbn [snd]. fold w. rewrite (Nat.eqb_sym w v).
    destruct (Nat.eqb_spec v w) as [->|Hne]; cbn [andb].
    + destruct (Nat.ltb_spec w (length vs)); [|lia]. rewrite H by auto. reflexivity.
    + cbn [map]. rewrite app_nil_r. auto.
  - exists vs. auto.
Qed.
(** clause 0 has no negated literal: otherwise its sign is lost *)
Hypothesis POS0 : forall l, In l (nth 0 clauses []) -> (0 < l)%Z.
Lemma zsum_flat_map {A B} (g : A -> list B) (f : B -> Z) : forall l, zsum (flat_map g l) f = zsum l (fun a => zsum (g a) f).
Proof. induction l as [|a l IH]; auto. cbn [flat_map]. rewrite zsum_app, zsum_cons, IH. auto. Qed.
Lemma zsum_filter {A} (p : A -> bool) (f : A -> Z) : forall l, zsum (filter p l) f = zsum l (fun a => if p a then f a else 0%Z).
Proof. induction l as [|a l IH]; auto. cbn [filter]. rewrite zsum_cons. destruct (p a); [rewrite zsum_cons|]; rewrite IH; lia. Qed.
Lemma sat_incr_ok vs s bit : occ_random clauses n = Ok vs -> length (geno s) = n -> bit < n -> fit s = Some (satisfied clauses (geno s)) ->
  exists x', bit_move bit (geno s) = Ok x' /\ sat_incr clauses vs s bit = sat_eval clauses x'.
Proof.
  intros Evs L Hb Hf. destruct (flip_ok (geno s) bit ltac:(lia)) as (x' & E & L' & Hx & _). exists x'. split; auto. rewrite sat_eval_ok by congruence.
  destruct occ_random_ok as (vs' & Evs' & Lv & Hvs). rewrite Evs in Evs'. injection Evs' as <-. set (x := geno s) in *.
  unfold sat_incr. rewrite (gene_ok vs (S bit) []) by lia. cbn [rbind]. rewrite Hvs by lia.
  (* literals of the flipped variable change value, the others do not *)
  assert (Hlit : forall l, (l <> 0)%Z -> literal_true x' l = if Z.to_nat (Z.abs l) =? S bit then negb (literal_true x l) else literal_true x l).
  { intros l Hl. unfold literal_true. destruct (Z.ltb_spec 0 l); rewrite Hx; destruct (Nat.eqb_spec (Z.to_nat (Z.abs l)) (S bit)).
    - destruct (Nat.eqb_spec (Z.to_nat l - 1) bit); [auto|lia].
    - destruct (Nat.eqb_spec (Z.to_nat l - 1) bit); [lia|auto].
    - destruct (Nat.eqb_spec (Z.to_nat (- l) - 1) bit); [auto|lia].
    - destruct (Nat.eqb_spec (Z.to_nat (- l) - 1) bit); [lia|auto]. }
  rewrite (for_in_sum _ (fun nc => (Z.b2z (sat x' (Z.to_nat (Z.abs nc))) - Z.b2z (sat x (Z.to_nat (Z.abs nc))))%Z)).
  - cbn [rbind]. unfold fitness. rewrite Hf. cbn [rbind]. f_equal. rewrite !satisfied_sum.
    rewrite zsum_map, zsum_filter. unfold occurrences. rewrite zsum_flat_map.
    enough (Hsum : zsum (seq 0 (length clauses)) (fun a => zsum (map (pair a) (nth a clauses [])) (fun p => if of_var (S bit) p then (Z.b2z (sat x' (Z.to_nat (Z.abs (signed p)))) - Z.b2z (sat x (Z.to_nat (Z.abs (signed p)))))%Z else 0%Z))
        = (zsum (seq 0 (length clauses)) (fun i => Z.b2z (sat x' i)) - zsum (seq 0 (length clauses)) (fun i => Z.b2z (sat x i)))%Z) by lia.
    rewrite <- zsum_sub. apply zsum_ext. intros i Hi. rewrite zsum_map.
    rewrite (zsum_ext _ _ (fun l => if Z.to_nat (Z.abs l) =? S bit then (Z.b2z (sat x' i) - Z.b2z (sat x i))%Z else 0%Z)).
    2:{ intros l Hl. unfold of_var, signed. cbn [fst snd]. destruct (Nat.eqb_spec (Z.to_nat (Z.abs l)) (S bit)); auto.
        replace (Z.to_nat (Z.abs (if (l <? 0)%Z then (- Z.of_nat i)%Z else Z.of_nat i))) with i by (destruct (l <? 0)%Z; lia). auto. }
    (* at most one literal of the variable *)
    assert (Hone : forall c g, NoDup (map Z.abs c) -> 
      zsum c (fun l => if Z.to_nat (Z.abs l) =? S bit then g else 0%Z) = if existsb (fun l => Z.to_nat (Z.abs l) =? S bit) c then g else 0%Z).
    { clear. induction c as [|l c IH]; intros g Nd; auto. cbn [map] in Nd. inversion Nd as [|? ? N1 N2]; subst. rewrite zsum_cons. cbn [existsb]. destruct (Nat.eqb_spec (Z.to_nat (Z.abs l)) (S bit)) as [El|Nl]; cbn [orb].
      - rewrite (zsum_ext c _ (fun _ => 0%Z)); [rewrite zsum_0; lia|]. intros k Hk. destruct (Nat.eqb_spec (Z.to_nat (Z.abs k)) (S bit)); auto. destruct N1. apply in_map_iff. exists k. split; auto. lia.
      - rewrite IH; auto. }
    rewrite Hone by apply literals_distinct. destruct (existsb (fun l => Z.to_nat (Z.abs l) =? S bit) (nth i clauses [])) eqn:Ex; auto.
    replace (sat x' i) with (sat x i); [lia|]. unfold sat. 
    assert (Hsame : forall c, (forall l, In l c -> l <> 0%Z) -> existsb (fun l => Z.to_nat (Z.abs l) =? S bit) c = false -> existsb (literal_true x) c = existsb (literal_true x') c).
    { clear - Hlit. induction c as [|l c IH]; intros Hnz Hex; auto. cbn [existsb] in *. apply orb_false_iff in Hex as [H1 H2]. rewrite (Hlit l) by (apply Hnz; left; auto). rewrite H1. f_equal. apply IH; auto. intros. apply Hnz. right. auto. }
    apply Hsame; auto. intros l Hl. apply literals_ok in Hl. lia.
  - intros nc acc Hnc. apply in_map_iff in Hnc as ([i l] & <- & Hin). apply filter_In in Hin as [Hin Hv]. apply occ_In in Hin as [Hi Hin]. unfold of_var in Hv. cbn [snd] in Hv. assert (Hl := literals_ok _ _ Hin).
    apply Nat.eqb_eq in Hv. change (geno s) with x. rewrite (gene_ok x bit false) by lia. cbn [rbind]. 
    assert (Ei : Z.to_nat (Z.abs (signed (i, l))) = i) by (unfold signed; cbn [fst snd]; destruct (l <? 0)%Z; lia). rewrite Ei.
    assert (Elit : (if (signed (i, l) <? 0)%Z then negb (nth bit x false) else nth bit x false) = literal_true x l).
    { unfold signed, literal_true. cbn [fst snd]. destruct (Z.ltb_spec l 0) as [Hneg|Hpos].
      - assert (i <> 0) by (intros ->; apply POS0 in Hin; lia). destruct (Z.ltb_spec (- Z.of_nat i) 0); [|lia]. destruct (Z.ltb_spec 0 l); [lia|]. replace (Z.to_nat (- l) - 1) with bit by lia. auto.
      - destruct (Z.ltb_spec (Z.of_nat i) 0); [lia|]. destruct (Z.ltb_spec 0 l); [|lia]. replace (Z.to_nat l - 1) with bit by lia. auto. }
    rewrite Elit. rewrite (gene_ok clauses i []) by auto. cbn [rbind].
    assert (E' : literal_true x' l = negb (literal_true x l)) by (rewrite Hlit by lia; rewrite Hv, Nat.eqb_refl; auto).
    destruct (literal_true x l) eqn:Et; cbn [negb] in E'.
    + rewrite E. cbn [rbind]. rewrite clause_ok by congruence. cbn [rbind]. assert (sat x i = true) as -> by (apply existsb_exists; eauto). destruct (sat x' i); cbn [Z.b2z]; f_equal; lia.
    + rewrite clause_ok by auto. cbn [rbind]. assert (sat x' i = true) as -> by (apply existsb_exists; eauto). destruct (sat x i); cbn [Z.b2z]; f_equal; lia.
Qed.
End Sat.
(** a file instance without negated literals builds the same table *)
Lemma occ_file_pos clauses n : (forall c l, In c clauses -> In l c -> (0 < l)%Z) -> occ_file clauses n = occ_random clauses n.
Proof.
  intros H. unfold occ_file, occ_random. apply for_in_ext. intros i vs Hi. apply in_seq in Hi. rewrite (gene_ok clauses i []) by lia. cbn [rbind]. apply for_in_ext. intros l vs' Hl.
  assert (0 < l)%Z by (eapply H; [|apply Hl]; apply nth_In; lia). assert (El : (l <? 0)%Z = false) by (apply Z.ltb_ge; lia). rewrite !El. auto.
Qed.
(** ** the random instances *)
Lemma random_clause_ok n : forall todo j var ds c var' ds', length var = n -> NoDup var -> (forall v, In v var -> (1 <= v <= Z.of_nat n)%Z) ->
  random_clause n j todo var ds = Ok (c, var', ds') ->
  length c = todo /\ Permutation var var' /\ NoDup (map Z.abs c) /\ (forall l, In l c -> (l <> 0)%Z /\ In (Z.abs l) (firstn (n - j) var)).
Proof.
  induction todo as [|m IH]; intros j var ds c var' ds' L Nd R H; cbn [random_clause] in H.
  - injection H as <- <- <-. split; auto. split; auto. split; [constructor|]. intros l [].
  - destruct (Nat.leb_spec n j) as [|Hj]; [discriminate|]. apply rbind_ok in H as ([ind ds1] & Hd & H). apply draw_lt in Hd; [|lia]. apply rbind_ok in H as (number & Hn & H). apply rbind_ok in H as (var1 & Hs & H). apply of_opt_ok in Hs.
    apply rbind_ok in H as ([f ds2] & Hf & H). apply rbind_ok in H as ([[c1 var2] ds3] & Hc & H). injection H as <- <- <-.
    assert (P1 : Permutation var var1) by (symmetry; eapply swap_at_perm; eauto).
    destruct (IH (S j) var1 ds2 c1 var2 ds3) as (H1 & H2 & H3 & H4); [ | | |exact Hc| ].
    { rewrite <- L. symmetry. apply Permutation_length. auto. } { eapply Permutation_NoDup; eauto. } { intros v Hv. apply R. eapply Permutation_in; [symmetry; eauto|auto]. }
    split; [cbn; lia|]. split; [etransitivity; eauto|].
    assert (Hnum : nth_error var ind = Some number) by (unfold gene in Hn; apply of_opt_ok in Hn; auto). assert (Rn := R number (nth_error_In _ _ Hnum)).
    assert (Ea : Z.abs (if f then (- number)%Z else number) = number) by (destruct f; lia).
    (* after the exchange the first n-j-1 places hold the other first n-j values *)
    assert (Hrest : forall v, In v (firstn (n - S j) var1) -> In v (firstn (n - j) var) /\ v <> number).
    { intros v Hv. apply In_nth_error in Hv as (k & Hk). assert (Hk' : k < n - S j). { apply nth_error_lt in Hk. rewrite firstn_length in Hk. lia. }
      rewrite firstn_nth_error in Hk by lia. assert (Hs' := swap_at_nth_error _ _ _ _ Hs k). 
      rewrite Hs' in Hk. destruct (Nat.eqb_spec k (n - j - 1)); [lia|]. destruct (Nat.eqb_spec k ind) as [Hki|Hki].
      - split; [apply nth_error_In with (n := n - j - 1); rewrite firstn_nth_error by lia; auto|]. intros ->. assert (n - j - 1 = ind) by (exact (NoDup_nth_error_inj _ _ _ _ Nd Hk Hnum)). lia.
      - split; [apply nth_error_In with (n := k); rewrite firstn_nth_error by lia; auto|]. intros ->. assert (k = ind) by (exact (NoDup_nth_error_inj _ _ _ _ Nd Hk Hnum)). lia. }
    split.
    + cbn [map]. rewrite Ea. constructor; auto. intros Hin. apply in_map_iff in Hin as (l & El & Hl). apply H4 in Hl as [_ Hl]. rewrite El in Hl. apply Hrest in Hl as [_ Hl]. congruence.
    + intros l [<-|Hl]; [rewrite Ea; split; [destruct f; lia|]|]. 
      * apply nth_error_In with (n := ind). rewrite firstn_nth_error by lia. auto.
      * apply H4 in Hl as [Hl1 Hl2]. split; auto. apply Hrest. auto.
Qed.

Lemma random_clauses_ok n k : forall m var ds cs ds', length var = n -> NoDup var -> (forall v, In v var -> (1 <= v <= Z.of_nat n)%Z) ->
  random_clauses n k m var ds = Ok (cs, ds') -> length cs = m /\ cnf n cs /\ forall c, In c cs -> length c = k.
Proof.
  induction m as [|m IH]; intros var ds cs ds' L Nd R H; cbn [random_clauses] in H.
  - injection H as <- <-. split; auto. split; intros c [].
  - apply rbind_ok in H as ([[c var1] ds1] & Hc & H). apply rbind_ok in H as ([cs1 ds2] & Hr & H). injection H as <- <-.
    destruct (random_clause_ok _ _ _ _ _ _ _ _ L Nd R Hc) as (H1 & H2 & H3 & H4).
    destruct (IH var1 ds1 cs1 ds2) as (I1 & I2 & I3); [ | | |exact Hr| ].
    { rewrite <- L. symmetry. apply Permutation_length. auto. } { eapply Permutation_NoDup; eauto. } { intros v Hv. apply R. eapply Permutation_in; [symmetry; eauto|auto]. }
    split; [cbn; lia|]. split.
    + intros c' [<-|Hc']; [|apply I2; auto]. split; auto. intros l Hl. apply H4 in Hl as [Hl1 Hl2]. split; auto. apply (R (Z.abs l)). rewrite <- (firstn_skipn (n - 0) var). apply in_or_app. auto.
    + intros c' [<-|Hc']; auto.
Qed.
Lemma vars_ok n : length (map Z.of_nat (seq 1 n)) = n /\ NoDup (map Z.of_nat (seq 1 n)) /\ forall v, In v (map Z.of_nat (seq 1 n)) -> (1 <= v <= Z.of_nat n)%Z.
Proof.
  split; [rewrite map_length, seq_length; auto|]. split.
  - apply FinFun.Injective_map_NoDup; [intros a b H; lia|apply seq_NoDup].
  - intros v Hv. apply in_map_iff in Hv as (i & <- & Hi). apply in_seq in Hi. lia.
Qed.
Lemma random_sat_ok n m k ds cs ds' : random_sat n m k ds = Ok (cs, ds') -> length cs = m /\ cnf n cs /\ forall c, In c cs -> length c = k.
Proof. intros H. destruct (vars_ok n) as (A1 & A2 & A3). eapply random_clauses_ok; eauto. Qed.
(** enough draws are enough *)
Lemma random_clause_total n : forall todo j var ds, length var = n -> j + todo <= n -> 2 * todo <= length ds ->
  exists c var' ds', random_clause n j todo var ds = Ok (c, var', ds') /\ length var' = n /\ length ds = 2 * todo + length ds'.
Proof.
  induction todo as [|m IH]; intros j var ds L Hj Hd; cbn [random_clause].
  - exists [], var, ds. auto.
  - destruct (Nat.leb_spec n j); [lia|]. destruct ds as [|d ds]; [cbn in Hd; lia|]. destruct ds as [|e ds]; [cbn in Hd; lia|]. cbn [draw]. cbn [rbind].
    assert (Hm : d mod (n - j) < n - j) by (apply Nat.mod_upper_bound; lia). set (ind := d mod (n - j)) in *. destruct (nth_error var ind) as [v|] eqn:E; [|apply nth_error_None in E; lia]. unfold gene. rewrite E. cbn [of_opt rbind].
    destruct (swap_at_total var ind (n - j - 1)) as (var1 & Es); [lia|lia|]. rewrite Es. cbn [of_opt rbind draw_flip].
    destruct (IH (S j) var1 ds) as (c & var' & ds' & E1 & E2 & E3); [erewrite swap_at_length by eauto; auto|lia|cbn in Hd; lia|].
    rewrite E1. cbn [rbind]. eexists _, _, _. split; [reflexivity|]. split; auto. cbn. cbn in E3. lia.
Qed.
Lemma random_sat_total n m k ds : k <= n -> 2 * k * m <= length ds -> exists cs ds', random_sat n m k ds = Ok (cs, ds').
Proof.
  intros Hk. unfold random_sat. assert (L := proj1 (vars_ok n)). revert L. generalize (map Z.of_nat (seq 1 n)) as var. revert ds. induction m as [|m IH]; intros ds var L Hd; cbn [random_clauses]; eauto.
  destruct (random_clause_total n k 0 var ds) as (c & var' & ds' & E1 & E2 & E3); [auto|lia|lia|]. rewrite E1. cbn [rbind].
  destruct (IH ds' var' E2) as (cs & ds2 & E); [lia|]. rewrite E. cbn [rbind]. eauto.
Qed.
