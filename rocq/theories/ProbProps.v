(** The properties C162 to C164: benchmark problems. *)
From Coq Require Import ZArith QArith List Arith Bool Lia Lqa.
From Verif Require Import Lib Outcome EvalModel EvalSpec EvalProofs EvalProps ProbModel ProbSpec ProbPath ProbProofs ProbRest.
From Coq Require Import List.
Import ListNotations.
Open Scope nat_scope.

(** ** C162: the long k-path *)
(** the fitness is the length plus the place on the path, or the number of zeros off it *)
Theorem C162_value : forall k m x, 1 <= k -> m < 31 -> (Z.of_nat ((k + 1) * 2 ^ m + 1) <= 2 ^ 32 + Z.of_nat k)%Z -> length x = 1 + m * k ->
  (forall i, nth_error (long_path k m) i = Some x -> kp_eval k x = Ok (Z.of_nat (length x) + Z.of_nat i)%Z) /\
  (~ In x (long_path k m) -> kp_eval k x = Ok (Z.of_nat (zeros x))).
Proof. intros k m x Hk Hm Hw L. split; [intros i; apply kp_on; auto|apply kp_off; auto]. Qed.
(** the path visits no point twice, one step changes one bit, from all zeros to zeros then k ones; its length is exponential *)
Theorem C162_path : forall k m, 1 <= k ->
  NoDup (long_path k m) /\ (forall x, In x (long_path k m) -> length x = 1 + m * k) /\ length (long_path k m) + k = (k + 1) * 2 ^ m + 1 /\
  (forall i x y, nth_error (long_path k m) i = Some x -> nth_error (long_path k m) (S i) = Some y -> hamming x y = 1) /\
  nth_error (long_path k m) 0 = Some (repeat false (1 + m * k)) /\
  (1 <= m -> last (long_path k m) [] = repeat false (1 + (m - 1) * k) ++ repeat true k).
Proof.
  intros k m Hk. split; [apply path_nodup; auto|]. split; [apply path_length; auto|]. split; [apply plen_eq; auto|]. split.
  - intros i x y Hx Hy. pose proof (path_distance k Hk m _ _ _ _ Hx Hy ltac:(lia)) as H. destruct (Nat.min_spec k (S i - i)); lia.
  - split; [apply path_first; auto|]. intros Hm. destruct m as [|m]; [lia|]. rewrite path_end by auto. cbn [Nat.sub]. rewrite Nat.sub_0_r. auto.
Qed.
(** no shortcut: two points of the path that differ in fewer than k bits are that many steps apart *)
Theorem C162_no_shortcut : forall k m i j x y, 1 <= k -> nth_error (long_path k m) i = Some x -> nth_error (long_path k m) j = Some y -> hamming x y < k ->
  hamming x y = Nat.max i j - Nat.min i j.
Proof.
  intros k m i j x y Hk Hx Hy H. destruct (le_lt_dec i j) as [Hl|Hl].
  - pose proof (path_distance k Hk m _ _ _ _ Hx Hy Hl) as K. rewrite Nat.max_r, Nat.min_l by lia. destruct (Nat.min_spec k (j - i)); lia.
  - pose proof (path_distance k Hk m _ _ _ _ Hy Hx ltac:(lia)) as K. rewrite (hamming_sym y x) in K. rewrite Nat.max_l, Nat.min_r by lia. destruct (Nat.min_spec k (i - j)); lia.
Qed.
(** one local optimum: the end of the path *)
Theorem C162_one_optimum : forall k m x, 1 <= k -> m < 31 -> (Z.of_nat ((k + 1) * 2 ^ m + 1) <= 2 ^ 32 + Z.of_nat k)%Z -> length x = 1 + m * k ->
  ((forall y v w, length y = length x -> hamming x y = 1 -> kp_eval k x = Ok v -> kp_eval k y = Ok w -> (w <= v)%Z) <-> x = last (long_path k m) []).
Proof. intros k m x Hk Hm Hw. apply kp_optimum; auto. Qed.
Definition b5 (a b c d e : bool) := [a; b; c; d; e].
Example C162_ex : length (long_path 2 2) = 11 /\ kp_eval 2 (b5 false true true false false) = Ok 9%Z /\ kp_eval 2 (b5 false true true true true) = Ok 11%Z /\ kp_eval 2 (b5 false false false true true) = Ok 15%Z /\
  kp_eval 2 (b5 true false true false true) = Ok 2%Z /\ nth_error (long_path 2 2) 10 = Some (b5 false false false true true).
Proof. repeat split; vm_compute; reflexivity. Qed.
(** the length must be one more than a multiple of k *)
Theorem C162_other_length_outside : kp_eval 2 [false; false] = UB /\ forall x, kp_eval 3 (x :: []) <> UB.
Proof. split; [reflexivity|]. intros x. destruct x; discriminate. Qed.

(** ** C163: queens, building blocks, NK tables *)
Theorem C163_queens : forall q, q <> [] -> (forall r, In r q -> 0 <= r <= 2 ^ 32 - Z.of_nat (length q))%Z -> exists c, queen_eval q = Ok (Z.of_nat c) /\ threats q c.
Proof. exact queen_ok. Qed.
(** fitness 0: no queen threatens another, on rows that are all different *)
Theorem C163_queens_solved : forall q, q <> [] -> (forall r, In r q -> 0 <= r <= 2 ^ 32 - Z.of_nat (length q))%Z ->
  (queen_eval q = Ok 0%Z <-> forall i j, i < j < length q -> ~ threat q i j).
Proof.
  intros q Hq Hr. destruct (queen_ok q Hq Hr) as (c & E & ps & Hn & L & H). rewrite E. split.
  - intros K i j Hij Ht. injection K as K. assert (In (i, j) ps) as Hin by (apply H; auto). destruct ps; [destruct Hin|cbn in L; lia].
  - intros K. destruct ps as [|[i j] ps]; [cbn in L; subst c; auto|]. destruct (proj1 (H i j) (or_introl eq_refl)) as [H1 H2]. destruct (K i j H1 H2).
Qed.
Example C163_queens_ex : queen_eval [1; 3; 0; 2]%Z = Ok 0%Z /\ queen_eval [0; 1; 2; 3]%Z = Ok 6%Z /\ queen_eval [3; 2; 0; 1]%Z = Ok 2%Z.
Proof. repeat split; vm_compute; reflexivity. Qed.
Theorem C163_queens_empty_outside : queen_eval [] = NoDraw.
Proof. reflexivity. Qed.

Theorem C163_blocks : forall b k tws x, b * k <= length x -> (forall tw, In tw tws -> length (fst tw) = k) ->
  exists v, bb_eval (fold_left (fun p tw => add_target p (fst tw) (snd tw)) tws (Bb b k [] [])) x = Ok v /\ (v == bb_value b k tws x)%Q.
Proof. exact bb_ok. Qed.
Theorem C163_blocks_best : forall b k t w x v, b * k <= length x -> length t = k -> ((1 # 2) < w)%Q ->
  bb_eval (add_target (Bb b k [] []) t w) x = Ok v ->
  (v <= inject_Z (Z.of_nat b) * w)%Q /\ ((v == inject_Z (Z.of_nat b) * w)%Q <-> forall i, i < b -> block k i x = t).
Proof.
  intros b k t w x v Hx Ht Hw E. destruct (bb_ok b k [(t, w)] x Hx) as (v' & E' & Ev); [intros tw [<-|[]]; auto|].
  cbn [fold_left fst snd] in E'. rewrite E in E'. injection E' as <-. rewrite Ev. apply bb_best; auto.
Qed.
Example C163_blocks_ex : exists v, bb_eval (add_target (add_target (Bb 2 2 [] []) [true; true] 1) [false; true] (3 # 1)) [true; true; false; true] = Ok v /\ (v == 5)%Q.
Proof. eexists. split; [vm_compute; reflexivity|]. reflexivity. Qed.

(** random instances: N tables of 2^(K+1) values between 0 and 1; every string of N bits has a fitness between 0 and 1 *)
Definition instance_ok (n k : nat) (R : Q -> Prop) (t : list (list (option Q))) : Prop :=
  exists ts, t = map (map Some) ts /\ tables_ok n k ts /\ (forall row v, In row ts -> In v row -> R v) /\
    forall ls x, links_ok n k ls -> length x = n -> 0 < n -> exists v, nk_eval (Nk n k ls ts) x = Ok v /\ (0 <= v <= 1)%Q.
Lemma instance_of n k (R : Q -> Prop) t : (forall v, R v -> 0 <= v <= 1)%Q -> length t = n -> (forall r, In r t -> length r = 2 ^ S k /\ Forall (fun o => exists v, o = Some v /\ R v) r) -> instance_ok n k R t.
Proof.
  intros HR L H. destruct (numbers R n k t L H) as (ts & E1 & E2 & E3). exists ts. split; auto. split; auto. split; auto. intros ls x Hl Hx Hn. apply nk_unit; auto. intros row v H1 H2. apply HR. eauto.
Qed.
Theorem C163_nk_instance : forall n k us t us', uniform_draws us -> gen_tables nk_contribution n k us = Ok (t, us') -> instance_ok n k (fun v => 0 <= v <= 1)%Q t.
Proof. intros n k us t us' Hu H. destruct (gen_tables_ok _ uniform_draws _ nk_contribution_ok _ _ _ _ _ H Hu) as (L & H1 & _). apply instance_of; auto. Qed.
Theorem C163_nkp_instance : forall p n k us t us', uniform_draws us -> gen_tables (nkp_contribution p) n k us = Ok (t, us') -> instance_ok n k (fun v => 0 <= v <= 1)%Q t.
Proof. intros p n k us t us' Hu H. destruct (gen_tables_ok _ uniform_draws _ (nkp_contribution_ok p) _ _ _ _ _ H Hu) as (L & H1 & _). apply instance_of; auto. Qed.
Theorem C163_nkq_instance : forall q n k ds t ds', 2 <= q -> gen_tables (nkq_contribution q) n k ds = Ok (t, ds') ->
  instance_ok n k (fun v => exists r : nat, r < q /\ v = (inject_Z (Z.of_nat r) / inject_Z (Z.of_nat (q - 1)))%Q) t.
Proof.
  intros q n k ds t ds' Hq H. destruct (gen_tables_ok (nkq_contribution q) (fun _ => True) (fun o => exists v, o = Some v /\ exists r : nat, r < q /\ v = (inject_Z (Z.of_nat r) / inject_Z (Z.of_nat (q - 1)))%Q)) with (1 := fun d v d' E (_ : True) => conj (nkq_contribution_ok q d v d' Hq E) I) (2 := H) as (L & H1 & _); auto.
  apply instance_of; auto. intros v (r & Hr & ->). assert (0 < inject_Z (Z.of_nat (q - 1)))%Q as Hp by (change 0%Q with (inject_Z 0); rewrite <- Zlt_Qlt; lia).
  split; [apply Qle_shift_div_l; auto|apply Qle_shift_div_r; auto].
  - rewrite Qmult_0_l. change 0%Q with (inject_Z 0). rewrite <- Zle_Qle. lia.
  - rewrite Qmult_1_l. rewrite <- Zle_Qle. lia.
Qed.
(** a proportion of zeros: NKp with p > 1/2 keeps a value only when the draw is at least p *)
Theorem C163_nkp_zero : forall p u v us, nkp_contribution p (u :: v :: us) = if Qlt_le_dec u p then Ok (Some 0%Q, v :: us) else Ok (Some v, us).
Proof.
  intros p u v us. unfold nkp_contribution. cbn [draw_uniform rbind]. destruct (Qlt_le_dec u p) as [H|H].
  - destruct (Qle_bool p u) eqn:E; [apply Qle_bool_iff in E; lra|]. auto.
  - apply Qle_bool_iff in H. rewrite H. auto.
Qed.
Example C163_nk_ex : exists t us, gen_tables (nkp_contribution (1 # 2)) 2 0 [1 # 4; 3 # 4; 1 # 3; 1 # 8; 7 # 8; 1 # 5]%Q = Ok (t, us) /\ t = [[Some 0; Some (1 # 3)]; [Some 0; Some (1 # 5)]]%Q /\
  exists t' ds, gen_tables (nkq_contribution 3) 1 1 [5; 1; 3; 4] = Ok (t', ds) /\ t' = [[Some (2 / 2); Some (1 / 2); Some (0 / 2); Some (1 / 2)]]%Q.
Proof. eexists _, _. split; [vm_compute; reflexivity|]. split; [reflexivity|]. eexists _, _. split; [reflexivity|]. reflexivity. Qed.

(** ** C164: instances saved to files *)
(** no file can be loaded *)
Theorem C164_load_refuted : forall magic, In magic [w_nk; w_nkp; w_nkq] -> forall fuel nparams num file r, nk_load fuel magic nparams num file = Ok r -> False.
Proof.
  intros magic Hm fuel nparams num file r. unfold nk_load. destruct (next_word file []) as [s f0]. destruct (comments fuel s f0) as [[s1 f1]| | |]; cbn [rbind]; try discriminate.
  destruct (first_char s1 =? ch_p); cbn [negb]; [|discriminate]. destruct (next_word f1 s1) as [s2 f2].
  destruct (list_eq_dec Nat.eq_dec s2 magic) as [->|]; cbn [negb]; [|discriminate]. destruct (next_nums nparams num f2) as [ps f3].
  assert (first_char magic =? ch_p = false) as ->; [|cbn [negb]; discriminate]. destruct Hm as [<-|[<-|[<-|[]]]]; reflexivity.
Qed.
(** in particular what save has written is refused, whatever the instance and the name *)
Theorem C164_saved_refuted : forall magic, In magic [w_nk; w_nkp; w_nkq] -> forall fuel num show name params ls ts,
  nk_load (S (S fuel)) magic (length params) num (nk_save show name magic params ls ts) = Throw.
Proof.
  intros magic Hm fuel num show name params ls ts. unfold nk_load, nk_save. cbn [app next_word comments first_char hd skip_line].
  change (99 =? ch_c) with true. cbn iota. cbn [next_word rbind first_char hd]. change (112 =? ch_c) with false. cbn iota. cbn [rbind first_char hd]. change (112 =? ch_p) with true. cbn [negb next_word].
  destruct (list_eq_dec Nat.eq_dec magic magic) as [_|]; [|congruence]. cbn [negb].
  destruct (next_nums _ _ _) as [ps f3]. assert (first_char magic =? ch_p = false) as ->; [|reflexivity]. destruct Hm as [<-|[<-|[<-|[]]]]; reflexivity.
Qed.
(** a file of comments is read for ever *)
Theorem C164_comments_outside : forall fuel, nk_load fuel w_nk 2 (fun _ => 0%Q) [W [99]; W [104; 105]; Eol] = NoDraw.
Proof.
  intros fuel. unfold nk_load. cbn [next_word]. enough (forall f, comments fuel [99] f = NoDraw \/ f <> [] /\ f <> [W [104; 105]; Eol]) as H.
  { destruct (H [W [104; 105]; Eol]) as [->|[_ H2]]; [reflexivity|congruence]. }
  induction fuel as [|fuel IH]; intros f; [left; reflexivity|]. cbn [comments first_char hd]. change (99 =? ch_c) with true. cbn iota.
  destruct (list_eq_dec (fun a b : item => ltac:(decide equality; apply list_eq_dec, Nat.eq_dec)) f []) as [->|H1].
  - left. cbn [skip_line next_word]. destruct (IH []) as [->|[H _]]; auto. congruence.
  - destruct (list_eq_dec (fun a b : item => ltac:(decide equality; apply list_eq_dec, Nat.eq_dec)) f [W [104; 105]; Eol]) as [->|H2]; [|right; auto].
    left. cbn [skip_line next_word]. destruct (IH []) as [->|[H _]]; auto. congruence.
Qed.
(** NKq with one value: the contributions are not numbers *)
Theorem C164_nkq_one_refuted : forall d ds, nkq_contribution 1 (d :: ds) = Ok (None, ds).
Proof. reflexivity. Qed.
Print Assumptions C162_value.
Print Assumptions C162_path.
Print Assumptions C162_no_shortcut.
Print Assumptions C162_one_optimum.
Print Assumptions C162_other_length_outside.
Print Assumptions C163_queens.
Print Assumptions C163_queens_solved.
Print Assumptions C163_queens_empty_outside.
Print Assumptions C163_blocks.
Print Assumptions C163_blocks_best.
Print Assumptions C163_nk_instance.
Print Assumptions C163_nkp_instance.
Print Assumptions C163_nkq_instance.
Print Assumptions C163_nkp_zero.
Print Assumptions C164_load_refuted.
Print Assumptions C164_saved_refuted.
Print Assumptions C164_comments_outside.
Print Assumptions C164_nkq_one_refuted.
