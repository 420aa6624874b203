(** The offspring of the breeder of eoAlgoFoundryEA, and the object between evaluations. *)
From Coq Require Import List Arith Bool ZArith QArith Qround Lia.
From Verif Require Import Lib Outcome OrderSpec PopModel BreedModel BreedSpec BreedProofs AlgoModel AlgoSpec FoundModel EvfModel EvfSpec EvfProofs.
Import ListNotations.
Close Scope Q_scope.
Open Scope nat_scope.

Section Breed.
Context {G F W : Type}.
Notation I := (indiv G F).
Variable flip : Q -> W -> res (bool * W).
Variable wheel : list Q -> W -> res (nat * W).
Variable tick : W -> W.
Hypothesis Hflip : forall w, flip 1 w = Ok (true, tick w).
Variables (x : quad_op (G:=G) (F:=F) (W:=W)) (m : mon_op (G:=G) (F:=F) (W:=W)).
Variables (source : list I) (choose : W -> res (I * W)).
Notation op := (Sequential [(1%Q, QuadGen x); (1%Q, MonGen m)]).
Notation apply := (apply source choose flip wheel).
Notation couple := (couples tick x m choose 1).

Lemma nth_end {A} (a : list A) u t : nth_error (a ++ u :: t) (length a) = Some u.
Proof. rewrite nth_error_app2 by lia. rewrite Nat.sub_diag. reflexivity. Qed.
Lemma nth_end1 {A} (a : list A) u v t : nth_error (a ++ u :: v :: t) (S (length a)) = Some v.
Proof. rewrite nth_error_app2 by lia. replace (S (length a) - length a) with 1 by lia. reflexivity. Qed.
Lemma upd_end {A} (a : list A) u v t : upd (a ++ u :: t) (length a) v = Some (a ++ v :: t).
Proof. induction a as [|b a IH]; cbn [app length upd]; [reflexivity|]. rewrite IH. reflexivity. Qed.
Lemma upd_end1 {A} (a : list A) b u v t : upd (a ++ b :: u :: t) (S (length a)) v = Some (a ++ b :: v :: t).
Proof. replace (a ++ b :: u :: t) with ((a ++ [b]) ++ u :: t) by (rewrite <- app_assoc; reflexivity).
  replace (S (length a)) with (length (a ++ [b])) by (rewrite app_length; cbn; lia). rewrite upd_end, <- app_assoc. reflexivity. Qed.

Lemma quad_turn a w : seq_loop flip 1 (apply (QuadGen x)) 1 (Pop a (length a)) w =
  let! (p1, w) := choose (tick w) in
  let! (p2, w) := choose w in
  let! (y1, y2, b, w) := x p1 p2 w in Ok (Pop (a ++ [touch b y1; touch b y2]) (S (S (length a))), w).
Proof.
  cbn [seq_loop]. rewrite Hflip. cbn [rbind BreedModel.apply]. unfold deref at 1, at_end. cbn [cur dest]. rewrite Nat.eqb_refl.
  destruct (choose (tick w)) as [[p1 w1]| | |]; cbn [rbind cur dest]; try reflexivity.
  unfold incr at 1, at_end. cbn [cur dest]. rewrite app_length. cbn [length].
  destruct (Nat.eqb_spec (length a) (length a + 1)); [lia|]. unfold deref, at_end. cbn [cur dest].
  rewrite app_length. cbn [length]. destruct (Nat.eqb_spec (S (length a)) (length a + 1)); [|lia].
  destruct (choose w1) as [[p2 w2]| | |]; cbn [rbind cur dest]; try reflexivity.
  rewrite <- app_assoc. cbn [app]. rewrite nth_end. cbn [of_opt rbind]. rewrite e, <- e. replace (length a + 1) with (S (length a)) by lia.
  rewrite nth_end1. cbn [of_opt rbind].
  destruct (x p1 p2 w2) as [[[[y1 y2] b] w3]| | |]; cbn [rbind]; try reflexivity.
  unfold store. cbn [dest cur]. rewrite upd_end. cbn [of_opt rbind dest cur]. rewrite upd_end1. cbn [of_opt rbind dest cur].
  rewrite app_length. cbn [length]. destruct (Nat.eqb_spec (S (length a)) (length a + 2)); [lia|].
  unfold incr, at_end. cbn [cur dest]. rewrite app_length. cbn [length].
  destruct (Nat.eqb_spec (S (length a)) (length a + 2)); [lia|]. cbn [cur dest]. rewrite app_length. cbn [length].
  destruct (Nat.eqb_spec (S (S (length a))) (length a + 2)); [reflexivity|lia].
Qed.
Lemma mon_turn a u t fuel w : seq_loop flip (S fuel) (apply (MonGen m)) 1 (Pop (a ++ u :: t) (length a)) w =
  let! (z, b, w) := m u (tick w) in
  match t with
  | [] => Ok (Pop (a ++ [touch b z]) (S (length a)), w)
  | _ => seq_loop flip fuel (apply (MonGen m)) 1 (Pop (a ++ touch b z :: t) (S (length a))) w
  end.
Proof.
  cbn [seq_loop]. rewrite Hflip. cbn [rbind BreedModel.apply]. unfold deref at 1, at_end. cbn [cur dest].
  rewrite app_length. cbn [length]. destruct (Nat.eqb_spec (length a) (length a + S (length t))); [lia|]. cbn [rbind].
  unfold current. cbn [cur dest]. rewrite nth_end. cbn [of_opt rbind].
  destruct (m u (tick w)) as [[[z b] w1]| | |]; cbn [rbind]; try reflexivity.
  unfold store. cbn [dest cur]. rewrite upd_end. cbn [of_opt rbind dest cur].
  rewrite app_length. cbn [length]. destruct (Nat.eqb_spec (length a) (length a + S (length t))); [lia|].
  unfold incr, at_end. cbn [cur dest]. rewrite app_length. cbn [length].
  destruct (Nat.eqb_spec (length a) (length a + S (length t))); [lia|]. cbn [cur dest]. rewrite app_length. cbn [length].
  destruct t as [|v t]; cbn [length].
  - destruct (Nat.eqb_spec (S (length a)) (length a + 1)); [reflexivity|lia].
  - destruct (Nat.eqb_spec (S (length a)) (length a + S (S (length t)))); [lia|reflexivity].
Qed.
Lemma turn a w : apply op (Pop a (length a)) w =
  let! (l, w) := couple w in Ok (Pop (a ++ l) (S (S (length a))), w).
Proof.
  rewrite apply_seq. cbn [seq_all cur dest couples]. rewrite Nat.sub_diag, quad_turn.
  destruct (choose (tick w)) as [[p1 w1]| | |]; cbn [rbind]; try reflexivity.
  destruct (choose w1) as [[p2 w2]| | |]; cbn [rbind]; try reflexivity.
  destruct (x p1 p2 w2) as [[[[y1 y2] b] w3]| | |]; cbn [rbind dest]; try reflexivity.
  rewrite app_length. cbn [length]. replace (S (length a + 2 - length a)) with 3 by lia. rewrite mon_turn.
  destruct (m (touch b y1) (tick w3)) as [[[z1 b1] w4]| | |]; cbn [rbind]; try reflexivity.
  replace (S (length a)) with (length (a ++ [touch b1 z1])) at 1 by (rewrite app_length; cbn; lia).
  replace (a ++ touch b1 z1 :: [touch b y2]) with ((a ++ [touch b1 z1]) ++ [touch b y2]) by (rewrite <- app_assoc; reflexivity).
  rewrite mon_turn.
  destruct (m (touch b y2) (tick w4)) as [[[z2 b2] w5]| | |]; cbn [rbind]; try reflexivity.
  rewrite app_length, <- app_assoc. cbn [length app]. replace (length a + 1) with (S (length a)) by lia. reflexivity.
Qed.
Lemma couples_S n w : couples tick x m choose (S n) w =
  let! (l, w) := couple w in let! (r, w) := couples tick x m choose n w in Ok (l ++ r, w).
Proof.
  cbn [couples]. destruct (choose (tick w)) as [[p1 w1]| | |]; cbn [rbind]; try reflexivity.
  destruct (choose w1) as [[p2 w2]| | |]; cbn [rbind]; try reflexivity.
  destruct (x p1 p2 w2) as [[[[y1 y2] b] w3]| | |]; cbn [rbind]; try reflexivity.
  destruct (m (touch b y1) (tick w3)) as [[[z1 b1] w4]| | |]; cbn [rbind]; try reflexivity.
  destruct (m (touch b y2) (tick w4)) as [[[z2 b2] w5]| | |]; cbn [rbind]; try reflexivity.
Qed.
Lemma couple_length w l w' : couple w = Ok (l, w') -> length l = 2.
Proof.
  cbn [couples]. intros H. apply rbind_ok in H as ([p1 w1] & _ & H). apply rbind_ok in H as ([p2 w2] & _ & H).
  apply rbind_ok in H as ([[[y1 y2] b] w3] & _ & H). apply rbind_ok in H as ([[z1 b1] w4] & _ & H).
  apply rbind_ok in H as ([[z2 b2] w5] & _ & H). cbn [rbind] in H. injection H as <- <-. reflexivity.
Qed.
Lemma loop_couples target : forall n fuel a w, n = (S (target - length a)) / 2 -> n < fuel ->
  breed_loop source choose flip wheel fuel op target (Pop a (length a)) w =
  let! (l, w) := couples tick x m choose n w in Ok (Pop (a ++ l) (length a + length l), w).
Proof.
  induction n as [|n IH]; intros fuel a w Hn Hf; (destruct fuel as [|fuel]; [lia|]); cbn [breed_loop dest].
  - destruct (Nat.ltb_spec (length a) target) as [L|L].
    + exfalso. assert (E : 1 <= S (target - length a) / 2) by (apply Nat.div_le_lower_bound; lia). lia.
    + cbn [couples rbind length]. rewrite app_nil_r, Nat.add_0_r. reflexivity.
  - destruct (Nat.ltb_spec (length a) target) as [L|L].
    2: { replace (target - length a) with 0 in Hn by lia. cbn in Hn. discriminate. }
    rewrite turn, (couples_S n w). destruct (couple w) as [[l w1]| | |] eqn:E; cbn [rbind]; try reflexivity.
    apply couple_length in E. unfold incr, at_end. cbn [cur dest].
    assert (La : length (a ++ l) = S (S (length a))) by (rewrite app_length; lia).
    rewrite La, Nat.eqb_refl. rewrite <- La at 1. rewrite IH.
    + destruct (couples tick x m choose n w1) as [[r w2]| | |]; cbn [rbind]; try reflexivity.
      rewrite !app_length, app_assoc, Nat.add_assoc. reflexivity.
    + rewrite La. destruct (Nat.eq_dec target (S (length a))) as [->|N].
      * replace (S (S (length a) - length a)) with 2 in Hn by lia. cbn in Hn. injection Hn as ->. replace (S (length a) - S (S (length a))) with 0 by lia. reflexivity.
      * replace (S (target - length a)) with (S (target - S (S (length a))) + 1 * 2) in Hn by lia. rewrite Nat.div_add in Hn by lia. lia.
    + lia.
Qed.
End Breed.

Lemma breeding_couples {G F W} (flip : Q -> W -> res (bool * W)) wheel tick x m (s : selector G F W) pop w :
  (forall w, flip 1%Q w = Ok (true, tick w)) ->
  breeding flip wheel x m s pop w =
  let! w := setup s pop w in
  let! (l, w) := couples tick x m (pick s pop) (S (length pop) / 2) w in Ok (firstn (length pop) l, w).
Proof.
  intros Hf. unfold breeding. destruct (setup s pop w) as [w1| | |]; cbn [rbind]; try reflexivity.
  unfold hm_of_rate. change (Qle_bool 0 1) with true. cbn [rbind]. unfold general_breeder, hm_call. cbn [hm_count hm_rate Z.eqb].
  assert (Ec : Qceiling (1 * inject_Z (Z.of_nat (length pop))) = Z.of_nat (length pop)) by (rewrite Qmult_1_l; apply Qceiling_Z).
  rewrite Ec. destruct (Z.ltb_spec (Z.of_nat (length pop)) 0); [lia|]. rewrite Nat2Z.id. cbn [rbind].
  pose proof (loop_couples flip wheel tick Hf x m pop (pick s pop) (length pop) (S (length pop) / 2) (S (S (length pop))) [] w1) as E.
  cbn [length app] in E. rewrite Nat.sub_0_r in E. rewrite E.
  - destruct (couples tick x m (pick s pop) (S (length pop) / 2) w1) as [[l w2]| | |]; reflexivity.
  - reflexivity.
  - assert (S (length pop) / 2 <= S (length pop)) by (apply Nat.div_le_upper_bound; lia). lia.
Qed.
