From Coq Require Import List Arith Bool Lia Permutation.
From Verif Require Import Lib Outcome OrderSpec OrderLemmas PsoModel PsoSpec.
From Coq Require Import List.
Import ListNotations.

Lemma map_set {X Y} (f : X -> Y) l i a : map f (set l i a) = set (map f l) i (f a).
Proof.
  apply nth_error_ext. intros k. rewrite nth_error_map', !nth_error_set, map_length, nth_error_map'.
  destruct ((k =? i) && (i <? length l))%bool; auto.
Qed.

Section Linear.
Context {A V F : Type} (lt : F -> F -> bool).
Hypothesis swo : strict_weak_order lt.
Context {W : Type}.
Variable velocity : list (hood A V F) -> particle A V F -> nat -> W -> res (list V * W).
Variable flight : particle A V F -> W -> res (list A * W).
Variable eval : list A -> F.
Variable init_velocity : particle A V F -> W -> res (list V * W).

Notation particle := (particle A V F).
Notation hood := (hood A V F).
Notation swarm := (swarm A V F W).
Notation update := (linear_update A V F lt).
Notation step_velocity := (step_velocity A V F W velocity).
Notation step_flight := (step_flight A V F W flight).
Notation step_eval := (step_eval A V F W eval).
Notation step_update := (step_update A V F W update).
Notation over := (over A V F W).
Notation fbest := (first_best lt eval).

Implicit Types (s : swarm) (acc : nat -> list (list A)).

Definition mem (p : particle) (l : list (list A)) : Prop := fbest l (bpos p) /\ best p = eval (bpos p).
Definition hoodok (h : hood) acc : Prop :=
  (exists k, In k (members h) /\ In (pos (lbest h)) (acc k)) /\
  (forall k y, In k (members h) -> In y (acc k) -> lt (eval (pos (lbest h))) (eval y) = false) /\
  fit (lbest h) = Some (eval (pos (lbest h))) /\ best (lbest h) = eval (pos (lbest h)) /\ bpos (lbest h) = pos (lbest h).
Definition inv acc (n : nat) s : Prop :=
  length (pop s) = n /\
  (forall k p, nth_error (pop s) k = Some p -> mem p (acc k)) /\
  (forall h, In h (hoods s) -> hoodok h acc) /\
  Permutation (concat (map members (hoods s))) (seq 0 n).

(** a step that keeps the memory of particle k *)
Lemma keep acc n s s' k p p' : inv acc n s -> nth_error (pop s) k = Some p -> pop s' = set (pop s) k p' ->
  bpos p' = bpos p -> best p' = best p -> hoods s' = hoods s -> inv acc n s'.
Proof.
  intros (E & M & Hh & P) Hk Ep Eb Ef Eh. unfold inv. rewrite Eh, Ep, set_length. split; auto. split; [|split; auto].
  intros j q H. destruct (Nat.eq_dec j k) as [->|N].
  - rewrite nth_error_set_eq in H by (apply nth_error_lt in Hk; auto). injection H as <-.
    destruct (M _ _ Hk) as [B C]. unfold mem. rewrite Eb, Ef. auto.
  - rewrite nth_error_set_neq in H by auto. apply M in H. apply H.
Qed.
Lemma velocity_inv acc n s k s' : inv acc n s -> step_velocity s k = Ok s' -> inv acc n s'.
Proof.
  intros I H. apply rbind_ok in H as (p & Hp & H). apply of_opt_ok in Hp.
  apply rbind_ok in H as ([v w] & _ & H). injection H as <-. eapply keep; [eassumption|eassumption|reflexivity|..]; reflexivity.
Qed.
Lemma flight_inv acc n s k s' : inv acc n s -> step_flight s k = Ok s' -> inv acc n s'.
Proof.
  intros I H. apply rbind_ok in H as (p & Hp & H). apply of_opt_ok in Hp.
  apply rbind_ok in H as ([v w] & _ & H). injection H as <-. eapply keep; [eassumption|eassumption|reflexivity|..]; reflexivity.
Qed.
Lemma eval_inv acc n s k s' : inv acc n s -> step_eval s k = Ok s' -> inv acc n s'.
Proof.
  intros I H. apply rbind_ok in H as (p & Hp & H). apply of_opt_ok in Hp. injection H as <-. eapply keep; [eassumption|eassumption|reflexivity|..]; reflexivity.
Qed.
Lemma over_inv step acc n ks : (forall s k s', inv acc n s -> step s k = Ok s' -> inv acc n s') ->
  forall s s', inv acc n s -> over step ks s = Ok s' -> inv acc n s'.
Proof.
  intros St. induction ks as [|k ks IH]; intros s s' I H; cbn [PsoModel.over] in H.
  - injection H as <-. auto.
  - apply rbind_ok in H as (s1 & H1 & H). eauto.
Qed.

Lemma retrieve_spec (hs : list hood) k :
  (exists h, In h hs /\ In k (members h)) -> exists h, nth_error hs (retrieve A V F hs k) = Some h /\ In k (members h).
Proof.
  induction hs as [|h hs IH]; intros (g & Hg & Hk); [destruct Hg|]. cbn [retrieve].
  destruct (contains A V F h k) eqn:C.
  - exists h. split; auto. unfold contains in C. apply existsb_exists in C as (x & Hx & E). apply Nat.eqb_eq in E. subst; auto.
  - destruct Hg as [->|Hg].
    + exfalso. unfold contains in C. assert (existsb (Nat.eqb k) (members g) = true); [|congruence].
      apply existsb_exists. exists k. split; auto. apply Nat.eqb_refl.
    + destruct IH as (h' & E & I); eauto.
Qed.
Lemma concat_nth {X} (l : list (list X)) : NoDup (concat l) -> forall i j a b x,
  nth_error l i = Some a -> nth_error l j = Some b -> In x a -> In x b -> i = j.
Proof.
  induction l as [|c l IH]; intros N i j a b x Hi Hj Ha Hb; [destruct i; discriminate|].
  cbn [concat] in N.
  assert (D : forall y, In y c -> In y (concat l) -> False).
  { clear -N. induction c as [|z c IHc]; intros y Hy Hl; [destruct Hy|].
    cbn in N. inversion N as [|? ? N1 N2]; subst. destruct Hy as [->|Hy]; eauto. apply N1. apply in_or_app; auto. }
  assert (N' : NoDup (concat l)).
  { clear -N. induction c as [|z c IHc]; auto. cbn in N. inversion N; auto. }
  destruct i, j; cbn in Hi, Hj; auto.
  - injection Hi as ->. exfalso. apply (D x); auto. apply in_concat. exists b. split; auto. eapply nth_error_In; eauto.
  - injection Hj as ->. exfalso. apply (D x); auto. apply in_concat. exists a. split; auto. eapply nth_error_In; eauto.
  - f_equal. eapply IH; eauto.
Qed.

(** accounting of one more evaluation of particle k *)
Definition more acc (k : nat) (x : list A) : nat -> list (list A) := fun j => if j =? k then acc j ++ [x] else acc j.
Lemma in_more acc k x j y : In y (more acc k x j) -> In y (acc j) \/ j = k /\ y = x.
Proof.
  unfold more. destruct (j =? k) eqn:E; auto. apply Nat.eqb_eq in E. intros H. apply in_app_or in H as [H|[H|[]]]; auto.
Qed.
Lemma in_more_l acc k x j y : In y (acc j) -> In y (more acc k x j).
Proof. unfold more. destruct (j =? k); auto. intros; apply in_or_app; auto. Qed.
Lemma in_more_r acc k x : In x (more acc k x k).
Proof. unfold more. rewrite Nat.eqb_refl. apply in_or_app; right; left; auto. Qed.

Lemma fbest_max l x : fbest l x -> forall y, In y l -> lt (eval x) (eval y) = false.
Proof.
  intros (l1 & l2 & -> & B & C) y H. apply in_app_or in H as [H|[<-|H]].
  - apply (swo_asym _ swo). auto.
  - apply swo_irrefl; auto.
  - auto.
Qed.
Lemma fbest_in l x : fbest l x -> In x l.
Proof. intros (l1 & l2 & -> & _). apply in_or_app; right; left; auto. Qed.
Lemma fbest_snoc_new l x y : fbest l x -> lt (eval x) (eval y) = true -> fbest (l ++ [y]) y.
Proof.
  intros H L. exists l, []. repeat split; auto; [|intros z []].
  intros z Hz. apply (swo_le_lt _ swo) with (eval x); auto. eapply fbest_max; eauto.
Qed.
Lemma fbest_snoc_old l x y : fbest l x -> lt (eval x) (eval y) = false -> fbest (l ++ [y]) x.
Proof.
  intros (l1 & l2 & -> & B & C) L. exists l1, (l2 ++ [y]). split.
  - rewrite <- app_assoc. reflexivity.
  - split; auto. intros z H. apply in_app_or in H as [H|[<-|[]]]; auto.
Qed.

Lemma update_inv acc n s k p s' : inv acc n s -> nth_error (pop s) k = Some p -> fit p = Some (eval (pos p)) ->
  step_update s k = Ok s' -> inv (more acc k (pos p)) n s' /\
  log s' = log s /\ world s' = world s /\
  exists p', pop s' = set (pop s) k p' /\ pos p' = pos p /\ fit p' = fit p /\ length (bpos p') = length (bpos p).
Proof.
  intros (E & M & Hh & P) Hp Hf H.
  apply rbind_ok in H as (q & Hq & H). apply of_opt_ok in Hq. rewrite Hp in Hq. injection Hq as <-.
  apply rbind_ok in H as ([p' hs] & Hu & H). injection H as <-. cbn [pop hoods log world].
  apply rbind_ok in Hu as (p1 & Hb & Hu). apply rbind_ok in Hu as (hs1 & Hs & Hu). injection Hu as -> ->.
  unfold update_best, fitness, best_of in Hb. rewrite Hf in Hb. cbn [rbind] in Hb.
  destruct (M _ _ Hp) as [FB EB].
  assert (Q : pos p' = pos p /\ fit p' = fit p /\ mem p' (acc k ++ [pos p]) /\ length (bpos p') = length (bpos p) /\
     (lt (best p) (eval (pos p)) = true -> bpos p' = pos p /\ best p' = eval (pos p))).
  { destruct (lt (best p) (eval (pos p))) eqn:L.
    - destruct (length (bpos p) =? length (pos p)) eqn:EL; [|discriminate]. apply Nat.eqb_eq in EL.
      injection Hb as <-. cbn. rewrite Hf. repeat split; auto.
      rewrite EB in L. eapply fbest_snoc_new; eauto.
    - injection Hb as <-. repeat split; auto; try congruence. apply fbest_snoc_old; auto. congruence. }
  destruct Q as (Qp & Qf & Qm & Ql & Qb).
  assert (Kn : k < n) by (rewrite <- E; eapply nth_error_lt; eauto).
  destruct (retrieve_spec (hoods s) k) as (h & Hr & Hkh).
  { assert (I : In k (concat (map members (hoods s)))).
    { eapply Permutation_in; [apply Permutation_sym, P|]. apply in_seq. lia. }
    apply in_concat in I as (l & Hl & I). apply in_map_iff in Hl as (h & <- & Hl). eauto. }
  assert (ND : NoDup (concat (map members (hoods s)))).
  { eapply Permutation_NoDup; [apply Permutation_sym, P|]. apply seq_NoDup. }
  unfold update_hood, fitness in Hs. rewrite Hr in Hs. cbn [of_opt rbind] in Hs. rewrite Qf, Hf in Hs. cbn [rbind] in Hs.
  destruct (Hh h (nth_error_In _ _ Hr)) as ((k1 & Hk1 & In1) & Mx & Fh & Bh & Ph).
  rewrite Fh in Hs. cbn [rbind] in Hs. injection Hs as Hs.
  assert (Other : forall i g, i <> retrieve A V F (hoods s) k -> nth_error (hoods s) i = Some g -> hoodok g (more acc k (pos p))).
  { intros i g Ni Hi. destruct (Hh g (nth_error_In _ _ Hi)) as ((k2 & Hk2 & In2) & Mx2 & R). split; [|split; auto].
    - exists k2. split; auto. apply in_more_l; auto.
    - intros j y Hj Hy. apply in_more in Hy as [Hy|[-> ->]]; eauto. exfalso. apply Ni.
      eapply (concat_nth _ ND i (retrieve A V F (hoods s) k) (members g) (members h) k); auto; rewrite nth_error_map.
      + rewrite Hi; auto.
      + rewrite Hr; auto. }
  assert (Hpop : forall j p0, nth_error (set (pop s) k p') j = Some p0 -> mem p0 (more acc k (pos p) j)).
  { intros j p0 Hj. unfold more. destruct (j =? k) eqn:Ej.
    - apply Nat.eqb_eq in Ej. subst j. rewrite nth_error_set_eq in Hj by lia. injection Hj as <-. auto.
    - apply Nat.eqb_neq in Ej. rewrite nth_error_set_neq in Hj by auto. auto. }
  split; [|repeat split; auto; exists p'; repeat split; auto].
  unfold inv. cbn [pop hoods]. rewrite set_length. split; auto. split; [intros; auto|].
  destruct (lt (eval (pos (lbest h))) (eval (pos p))) eqn:L; subst hs.
  - split.
    + intros g Hg. apply In_nth_error in Hg as (i & Hi).
      destruct (Nat.eq_dec i (retrieve A V F (hoods s) k)) as [->|Ni].
      * rewrite nth_error_set_eq in Hi by (eapply nth_error_lt; eauto). injection Hi as <-.
        assert (L' : lt (best p) (eval (pos p)) = true).
        { rewrite EB. apply (swo_le_lt _ swo) with (eval (pos (lbest h))); auto. apply Mx with k; auto. eapply fbest_in; eauto. }
        destruct (Qb L') as [B1 B2].
        split; cbn [members lbest]; [|split; [|split; [|split]]].
        -- exists k. split; auto. rewrite Qp. apply in_more_r.
        -- intros j y Hj Hy. rewrite Qp. apply in_more in Hy as [Hy|[-> ->]].
           ++ destruct (lt (eval (pos p)) (eval y)) eqn:L2; auto.
              rewrite <- (Mx j y Hj Hy). symmetry. eapply swo_trans; eauto.
           ++ apply swo_irrefl; auto.
        -- rewrite Qf, Hf, Qp. auto.
        -- rewrite B2, Qp. auto.
        -- rewrite B1, Qp. auto.
      * rewrite nth_error_set_neq in Hi by auto. eauto.
    + rewrite map_set. cbn [members]. rewrite set_same; auto. rewrite nth_error_map, Hr. auto.
  - split; auto. intros g Hg. apply In_nth_error in Hg as (i & Hi).
    destruct (Nat.eq_dec i (retrieve A V F (hoods s) k)) as [->|Ni]; [|eauto].
    rewrite Hr in Hi. injection Hi as <-. split; [|split; auto].
    + exists k1. split; auto. apply in_more_l; auto.
    + intros j y Hj Hy. apply in_more in Hy as [Hy|[-> ->]]; eauto.
Qed.

Lemma inv_ext acc acc' n s : (forall j, acc j = acc' j) -> inv acc n s -> inv acc' n s.
Proof.
  intros E (L & M & Hh & P). split; auto. split; [|split; auto].
  - intros k p H. rewrite <- E. auto.
  - intros h H. destruct (Hh h H) as ((k & I1 & I2) & B & R). split; [|split; auto].
    + exists k. rewrite <- E. auto.
    + intros j y Hj. rewrite <- E. eauto.
Qed.
Lemma history_app (l l' : list (nat * list A)) k : history (l ++ l') k = history l k ++ history l' k.
Proof. unfold history. rewrite filter_app, map_app. auto. Qed.
Lemma history_one (k j : nat) (x : list A) : history [(k, x)] j = if k =? j then [x] else [].
Proof. unfold history. cbn. destruct (k =? j); auto. Qed.

Definition posn s k : option (list A) := option_map pos (nth_error (pop s) k).
Definition fresh s k : Prop := forall p, nth_error (pop s) k = Some p -> fit p = Some (eval (pos p)).

Lemma eval_one s k s' : step_eval s k = Ok s' ->
  exists p, nth_error (pop s) k = Some p /\ log s' = log s ++ [(k, pos p)] /\ world s' = world s /\ hoods s' = hoods s /\
    (forall j, posn s' j = posn s j) /\ fresh s' k /\ (forall j, j <> k -> nth_error (pop s') j = nth_error (pop s) j) /\
    length (pop s') = length (pop s).
Proof.
  intros H. apply rbind_ok in H as (p & Hp & H). apply of_opt_ok in Hp. injection H as <-. exists p.
  assert (L : k < length (pop s)) by (eapply nth_error_lt; eauto).
  cbn [pop log world hoods]. repeat split; auto.
  - intros j. unfold posn. cbn [pop]. destruct (Nat.eq_dec j k) as [->|N].
    + rewrite nth_error_set_eq by auto. rewrite Hp. auto.
    + rewrite nth_error_set_neq by auto. auto.
  - intros q Hq. cbn [pop] in Hq. rewrite nth_error_set_eq in Hq by auto. injection Hq as <-. auto.
  - intros j N. apply nth_error_set_neq; auto.
  - apply set_length.
Qed.
Definition points s (l : list (nat * list A)) : Prop := forall e, In e l -> posn s (fst e) = Some (snd e).
Lemma eval_over ks : forall s s', over step_eval ks s = Ok s' ->
  (forall j, posn s' j = posn s j) /\ (forall k, In k ks \/ fresh s k -> fresh s' k) /\
  exists l, log s' = log s ++ l /\ map fst l = ks /\ points s l.
Proof.
  induction ks as [|k ks IH]; intros s s' H; cbn [PsoModel.over] in H.
  - injection H as <-. split; auto. split; [intros k [[]|]; auto|]. exists []. rewrite app_nil_r. repeat split; auto. intros e [].
  - apply rbind_ok in H as (s1 & H1 & H). apply eval_one in H1 as (p & Hp & El & Ew & Eh & Ps & Fr & Ot & _).
    apply IH in H as (Ps' & Fr' & l & El' & Em & Pt).
    split; [intros; rewrite Ps'; auto|]. split.
    + intros j Hj. apply Fr'. destruct (Nat.eq_dec j k) as [->|N]; [right; auto|].
      destruct Hj as [[->|Hj]|Hj]; [congruence|left; auto|right]. unfold fresh. rewrite Ot; auto.
    + exists ((k, pos p) :: l). rewrite El', El, <- app_assoc. cbn [map fst]. rewrite Em. repeat split; auto.
      intros e [<-|He]; cbn [fst snd].
      * unfold posn. rewrite Hp. auto.
      * rewrite <- Ps. auto.
Qed.

Lemma update_one acc n s k s' : inv acc n s -> fresh s k -> step_update s k = Ok s' ->
  exists x, posn s k = Some x /\ inv (more acc k x) n s' /\ log s' = log s /\ world s' = world s /\
   (forall j, posn s' j = posn s j) /\ (forall j, fresh s j -> fresh s' j).
Proof.
  intros I Fr H. assert (H0 := H). apply rbind_ok in H0 as (p & Hp & _). apply of_opt_ok in Hp.
  destruct (update_inv acc n s k p s' I Hp (Fr _ Hp) H) as (I' & El & Ew & p' & Ep & Eo & Ef & _).
  assert (L : k < length (pop s)) by (eapply nth_error_lt; eauto).
  exists (pos p). split; [unfold posn; rewrite Hp; auto|]. split; [auto|]. split; [auto|]. split; [auto|]. split.
  - intros j. unfold posn. rewrite Ep. destruct (Nat.eq_dec j k) as [->|N].
    + rewrite nth_error_set_eq by auto. rewrite Hp. cbn. congruence.
    + rewrite nth_error_set_neq by auto. auto.
  - intros j Fj q. rewrite Ep. destruct (Nat.eq_dec j k) as [->|N].
    + rewrite nth_error_set_eq by auto. intros E; injection E as <-. rewrite Ef, Eo. auto.
    + rewrite nth_error_set_neq by auto. auto.
Qed.
Lemma update_over n ks : forall l acc s s', inv acc n s -> (forall k, In k ks -> fresh s k) -> map fst l = ks -> points s l ->
  over step_update ks s = Ok s' ->
  inv (fun j => acc j ++ history l j) n s' /\ log s' = log s /\
  (forall j, posn s' j = posn s j) /\ (forall j, fresh s j -> fresh s' j).
Proof.
  induction ks as [|k ks IH]; intros l acc s s' I Fr El Pt H; cbn [PsoModel.over] in H.
  - injection H as <-. apply map_eq_nil in El. subst l. split; [|repeat split; auto].
    eapply inv_ext; [|apply I]. intros j. cbn. rewrite app_nil_r. auto.
  - destruct l as [|[k0 x] l]; [discriminate|]. injection El as -> El.
    apply rbind_ok in H as (s1 & H1 & H).
    destruct (update_one acc n s k s1 I (Fr k (or_introl eq_refl)) H1) as (y & Py & I1 & L1 & _ & Ps & F1).
    assert (y = x). { specialize (Pt _ (or_introl eq_refl)). cbn in Pt. congruence. } subst y.
    destruct (IH l (more acc k x) s1 s') as (I2 & L2 & Ps2 & F2); auto.
    + intros j Hj. apply F1, Fr; right; auto.
    + intros e He. rewrite Ps. apply Pt; right; auto.
    + split; [|split; [congruence|split; [intros; rewrite Ps2; auto|auto]]].
      eapply inv_ext; [|apply I2]. intros j. cbn beta. unfold more.
      change ((k, x) :: l) with ([(k, x)] ++ l). rewrite history_app, history_one, (Nat.eqb_sym k j).
      destruct (j =? k); cbn [app]; auto. rewrite <- app_assoc. auto.
Qed.

(** what holds at the end of each turn *)
Definition current s k : Prop := forall p, nth_error (pop s) k = Some p ->
  fit p = Some (eval (pos p)) /\ exists l, history (log s) k = l ++ [pos p].
Definition settled n s : Prop := inv (history (log s)) n s /\ forall k, current s k.

Lemma other_step s s' k p' j : pop s' = set (pop s) k p' -> j <> k -> nth_error (pop s') j = nth_error (pop s) j.
Proof. intros E N. rewrite E. apply nth_error_set_neq; auto. Qed.
Lemma velocity_other s k s' : step_velocity s k = Ok s' -> log s' = log s /\ length (pop s') = length (pop s) /\
   forall j, j <> k -> nth_error (pop s') j = nth_error (pop s) j.
Proof.
  intros H. apply rbind_ok in H as (p & Hp & H). apply rbind_ok in H as ([v w] & _ & H). injection H as <-.
  cbn [pop log]. rewrite set_length. repeat split; auto. intros; apply nth_error_set_neq; auto.
Qed.
Lemma flight_other s k s' : step_flight s k = Ok s' -> log s' = log s /\ length (pop s') = length (pop s) /\
   forall j, j <> k -> nth_error (pop s') j = nth_error (pop s) j.
Proof.
  intros H. apply rbind_ok in H as (p & Hp & H). apply rbind_ok in H as ([v w] & _ & H). injection H as <-.
  cbn [pop log]. rewrite set_length. repeat split; auto. intros; apply nth_error_set_neq; auto.
Qed.

Notation async_one := (fun s k => let! s1 := step_velocity s k in let! s2 := step_flight s1 k in let! s3 := step_eval s2 k in step_update s3 k).
Lemma async_one_ok n s k s' : settled n s -> async_one s k = Ok s' ->
  settled n s' /\ exists x, log s' = log s ++ [(k, x)].
Proof.
  intros [I Cu] H. apply rbind_ok in H as (s1 & H1 & H). apply rbind_ok in H as (s2 & H2 & H). apply rbind_ok in H as (s3 & H3 & H).
  assert (I1 := velocity_inv _ _ _ _ _ I H1). assert (I2 := flight_inv _ _ _ _ _ I1 H2). assert (I3 := eval_inv _ _ _ _ _ I2 H3).
  apply velocity_other in H1 as (L1 & N1 & O1). apply flight_other in H2 as (L2 & N2 & O2).
  apply eval_one in H3 as (p & Hp & L3 & _ & _ & Ps & Fr & O3 & N3).
  assert (H4 := H). apply rbind_ok in H4 as (p3 & Hp3 & _). apply of_opt_ok in Hp3.
  destruct (update_inv _ n s3 k p3 s' I3 Hp3 (Fr _ Hp3) H) as (I4 & L4 & _ & p' & Ep & Eo & Ef & _).
  assert (E3 : pos p3 = pos p). { specialize (Ps k). unfold posn in Ps. rewrite Hp3, Hp in Ps. cbn in Ps. congruence. }
  assert (Lg : log s' = log s ++ [(k, pos p)]) by congruence.
  split; [|exists (pos p); auto]. split.
  - eapply inv_ext; [|apply I4]. intros j. unfold more. rewrite Lg, history_app, history_one, (Nat.eqb_sym k j), E3.
    destruct (j =? k); auto. rewrite app_nil_r; auto.
  - intros j q Hq. rewrite Lg, history_app, history_one. rewrite Ep in Hq. destruct (Nat.eqb_spec k j) as [<-|N].
    + rewrite nth_error_set_eq in Hq by (eapply nth_error_lt; eauto). injection Hq as <-. rewrite Ef, Eo. split.
      * apply Fr; auto.
      * exists (history (log s) k). congruence.
    + rewrite nth_error_set_neq in Hq by auto. rewrite app_nil_r. apply Cu. rewrite <- O1, <- O2, <- O3; auto.
Qed.
Lemma async_over n ks : forall s s', settled n s -> over async_one ks s = Ok s' ->
  settled n s' /\ exists l, log s' = log s ++ l /\ map fst l = ks.
Proof.
  induction ks as [|k ks IH]; intros s s' I H; cbn [PsoModel.over] in H.
  - injection H as <-. split; auto. exists []. rewrite app_nil_r; auto.
  - apply rbind_ok in H as (s1 & H1 & H). destruct (async_one_ok n s k s1 I H1) as (I1 & x & L1).
    apply IH in H as (I2 & l & L2 & M); auto. split; auto. exists ((k, x) :: l).
    rewrite L2, L1, <- app_assoc. cbn. rewrite M. auto.
Qed.
Definition turn_ok (turn : swarm -> res swarm) : Prop := forall n s s', settled n s -> turn s = Ok s' ->
  settled n s' /\ exists l, log s' = log s ++ l /\ map fst l = seq 0 n.
Lemma async_ok : turn_ok (async_turn A V F W velocity flight eval update).
Proof.
  intros n s s' I H. assert (E : length (pop s) = n) by apply I. unfold async_turn in H. rewrite E in H.
  eapply async_over; eauto.
Qed.
Lemma over_log step (ks : list nat) : (forall s k s', step s k = Ok s' -> log s' = log s) ->
  forall s s', over step ks s = Ok s' -> log s' = log s.
Proof.
  intros St. induction ks as [|k ks IH]; intros s s' H; cbn [PsoModel.over] in H.
  - injection H as <-. auto.
  - apply rbind_ok in H as (s1 & H1 & H). apply IH in H. apply St in H1. congruence.
Qed.
Lemma points_history (l : list (nat * list A)) k x : NoDup (map fst l) -> In (k, x) l -> history l k = [x].
Proof.
  induction l as [|[j y] l IH]; intros N H; [destruct H|]. cbn in N. inversion N as [|? ? N1 N2]; subst.
  change ((j, y) :: l) with ([(j, y)] ++ l). rewrite history_app, history_one. destruct H as [H|H].
  - injection H as -> ->. rewrite Nat.eqb_refl.
    assert (Z : history l k = []); [|rewrite Z; auto].
    clear -N1. induction l as [|[j y] l IH]; auto. cbn in N1. change ((j, y) :: l) with ([(j, y)] ++ l).
    rewrite history_app, history_one. destruct (Nat.eqb_spec j k) as [->|_]; [exfalso; apply N1; auto|]. apply IH; auto.
  - destruct (Nat.eqb_spec j k) as [->|_]; [|cbn; auto]. exfalso. apply N1. apply in_map_iff. exists (k, x); auto.
Qed.
Lemma sync_ok : turn_ok (sync_turn A V F W velocity flight eval update).
Proof.
  intros n s s' [I Cu] H. assert (E : length (pop s) = n) by apply I. unfold sync_turn in H. rewrite E in H.
  apply rbind_ok in H as (s1 & H1 & H). apply rbind_ok in H as (s2 & H2 & H). apply rbind_ok in H as (s3 & H3 & H).
  assert (I1 := over_inv _ _ _ _ (fun s k s' => velocity_inv _ n s k s') _ _ I H1).
  assert (I2 := over_inv _ _ _ _ (fun s k s' => flight_inv _ n s k s') _ _ I1 H2).
  assert (I3 := over_inv _ _ _ _ (fun s k s' => eval_inv _ n s k s') _ _ I2 H3).
  assert (L1 : log s1 = log s). { eapply over_log; [|apply H1]. intros ? ? ? X. apply velocity_other in X. apply X. }
  assert (L2 : log s2 = log s1). { eapply over_log; [|apply H2]. intros ? ? ? X. apply flight_other in X. apply X. }
  destruct (eval_over _ _ _ H3) as (Ps & Fr & l & L3 & Ml & Pt).
  destruct (update_over n (seq 0 n) l _ s3 s' I3) as (I4 & L4 & Ps4 & F4); auto.
  { intros e He. rewrite Ps. auto. }
  assert (Lg : log s' = log s ++ l) by congruence.
  split; [|exists l; auto]. split.
  - eapply inv_ext; [|apply I4]. intros j. cbn. rewrite Lg, history_app. auto.
  - intros k p Hp. assert (K : k < n). { destruct I4 as (<- & _). eapply nth_error_lt; eauto. }
    split; [apply (F4 k); auto; apply Fr; left; apply in_seq; lia|].
    rewrite Lg, history_app. exists (history (log s) k). f_equal. apply points_history.
    + rewrite Ml. apply seq_NoDup.
    + assert (Ik : In k (map fst l)) by (rewrite Ml; apply in_seq; lia). apply in_map_iff in Ik as ([k' x] & Ek & Ik).
      cbn in Ek. subst k'. assert (X := Pt _ Ik). cbn in X. rewrite <- Ps, <- Ps4 in X.
      unfold posn in X. rewrite Hp in X. cbn in X. congruence.
Qed.

Lemma turns_ok turn n : turn_ok turn -> forall m rest s s', settled n s ->
  turns A V F W turn (repeat true m ++ false :: rest) s = Ok s' ->
  settled n s' /\ exists l, log s' = log s ++ l /\ map fst l = concat (repeat (seq 0 n) (S m)).
Proof.
  intros T. induction m as [|m IH]; intros rest s s' I H; cbn [repeat app turns] in H;
    apply rbind_ok in H as (s1 & H1 & H); destruct (T n s s1 I H1) as (I1 & l1 & L1 & M1).
  - injection H as <-. split; auto. exists l1. split; auto. cbn. rewrite app_nil_r. auto.
  - apply IH in H as (I2 & l2 & L2 & M2); auto. split; auto. exists (l1 ++ l2). rewrite L2, L1, <- app_assoc. split; auto.
    rewrite map_app, M1, M2. auto.
Qed.
End Linear.
