(** C85-C89: the operators on real vectors. *)
From Coq Require Import ZArith QArith Qround Qabs List Bool Arith Lia Lqa.
From Verif Require Import Lib Outcome BoundsModel BoundsSpec BoundsProofs RealModel RealSpec RealProofs RealOps RealEs RealFifth.
From Coq Require Import List.
Import ListNotations.
Open Scope Q_scope.

Lemma bound_vec bs i b : bound_at (Vec bs) i = Ok b <-> nth_error bs i = Some b.
Proof. cbn. split; intros H; [apply of_opt_ok in H; auto|rewrite H; auto]. Qed.
Lemma covers_vec bs : Forall proper bs -> covers (Vec bs) bs.
Proof. intros P i b H. apply bound_vec in H. split; [rewrite Forall_forall in P; apply P; eapply nth_error_In; eauto|congruence]. Qed.
Lemma covers_dummy : covers Dummy [].
Proof. intros i b H. cbn in H. injection H as <-. split; [exact Logic.I|]. intros b H. destruct i; discriminate. Qed.
(** vectors related by [crossed] keep to the bounds when each pair does *)
Lemma crossed_inside bs R v w v' w' : crossed R v w v' w' -> all_inside bs v -> all_inside bs w ->
  (forall i x y x' y' b, nth_error bs i = Some b -> inside b x -> inside b y -> R i x y x' y' -> inside b x' /\ inside b y') -> all_inside bs v' /\ all_inside bs w'.
Proof.
  intros (L1 & L2 & L3 & RR & S) I1 I2 K. split; intros i b z Hb Hz.
  - assert (Hi := nth_error_lt _ _ _ Hz). destruct (nth_error v i) as [x|] eqn:Ex; [|apply nth_error_None in Ex; lia]. destruct (nth_error w i) as [y|] eqn:Ey; [|apply nth_error_None in Ey; lia].
    destruct (nth_error w' i) as [y'|] eqn:Ey'; [|apply nth_error_None in Ey'; lia]. destruct (K i x y z y' b) as (? & ?); eauto.
  - destruct (nth_error v i) as [x|] eqn:Ex.
    + assert (Hi := nth_error_lt _ _ _ Ex). destruct (nth_error w i) as [y|] eqn:Ey; [|apply nth_error_None in Ey; lia].
      destruct (nth_error v' i) as [x'|] eqn:Ex'; [|apply nth_error_None in Ex'; lia]. destruct (K i x y x' z b) as (? & ?); eauto.
    + apply nth_error_None in Ex. apply (I2 i b z Hb). rewrite <- Hz. replace i with (length v + (i - length v))%nat by lia. rewrite <- !skipn_nth_error, S. auto.
Qed.

Ltac same_values := let i := fresh in intros i ? ? Hx Hy; repeat (destruct i as [|i]; [cbn in Hx, Hy; first [discriminate|injection Hx as <-; injection Hy as <-; reflexivity]|cbn in Hx, Hy]); try discriminate; destruct i; discriminate.

(** ** C85: crossovers of real vectors *)
(** the children of the segment crossover are on the line through the parents, at the same place for every coordinate *)
Theorem C85_segment bs alpha v w r v' w' r' : 0 <= alpha -> unit_numbers (us r) -> all_inside bs v -> all_inside bs w -> segment (Vec bs) alpha v w r = Ok (v', w', r') ->
  (exists f, - alpha <= f <= 1 + alpha /\ crossed (fun _ x y x' y' => x' == f * x + (1 - f) * y /\ y' == (1 - f) * x + f * y) v w v' w') /\ all_inside bs v' /\ all_inside bs w'.
Proof.
  intros Ha G I1 I2 H. destruct (segment_ok (Vec bs) alpha v w r v' w' r' Ha G H) as (f & Hf & C).
  { intros j b x Hb Hx. apply bound_vec in Hb. eauto. } { intros j b x Hb Hx. apply bound_vec in Hb. eauto. }
  split.
  - exists f. split; auto. destruct C as (L1 & L2 & L3 & RR & S). split; auto. split; auto. split; auto. split; auto. intros i x y x' y' Hx Hy Hx' Hy'. destruct (RR i x y x' y' Hx Hy Hx' Hy') as (-> & -> & _). split; reflexivity.
  - apply (crossed_inside _ _ _ _ _ _ C I1 I2). intros i x y x' y' b Hb _ _ (_ & _ & K). apply K. apply bound_vec. auto.
Qed.
Theorem C85_segment_unbounded alpha v w r v' w' r' : 0 <= alpha -> unit_numbers (us r) -> segment Dummy alpha v w r = Ok (v', w', r') ->
  exists f, - alpha <= f <= 1 + alpha /\ crossed (fun _ x y x' y' => x' == f * x + (1 - f) * y /\ y' == (1 - f) * x + f * y) v w v' w'.
Proof.
  intros Ha G H. destruct (segment_ok Dummy alpha v w r v' w' r' Ha G H) as (f & Hf & C).
  { intros j b x Hb Hx. cbn in Hb. injection Hb as <-. exact Logic.I. } { intros j b x Hb Hx. cbn in Hb. injection Hb as <-. exact Logic.I. }
  exists f. split; auto. destruct C as (L1 & L2 & L3 & RR & S). split; auto. split; auto. split; auto. split; auto. intros i x y x' y' Hx Hy Hx' Hy'. destruct (RR i x y x' y' Hx Hy Hx' Hy') as (-> & -> & _). split; reflexivity.
Qed.
Theorem C85_segment_total bs alpha v w r : (length v <= length w)%nat -> (length v <= length bs)%nat -> us r <> [] -> exists o, segment (Vec bs) alpha v w r = Ok o.
Proof.
  intros L B U. apply segment_total; auto; [|destruct (us r); [congruence|cbn; lia]]. intros j Hj. destruct (nth_error bs j) as [b|] eqn:E; [|apply nth_error_None in E; lia]. exists b. apply bound_vec. auto.
Qed.
(** the segment between two points of a box, beyond its ends: the factor is cut by the upper bound *)
Example C85_segment_example : exists v' w' r', segment (Vec [Interval 0 9; NoBounds]) (1 # 2) [8; 1] [4; 3] (Rand [11 # 12] []) = Ok (v', w', r') /\ pointwise Qeq v' [17 # 2; 3 # 4] /\ pointwise Qeq w' [7 # 2; 13 # 4].
Proof.
  do 3 eexists. split; [vm_compute; reflexivity|].
  split; (split; [reflexivity|]); same_values.
Qed.

(** the hypercube crossover without exploration: each coordinate between those of the parents *)
Theorem C85_hypercube_inner vb alpha v w r v' w' c r' : alpha == 0 -> unit_numbers (us r) -> hypercube vb alpha v w r = Ok (v', w', (c, r')) ->
  crossed (fun _ x y x' y' => between x y x' /\ between x y y' /\ x' + y' == x + y) v w v' w'.
Proof. apply hypercube_plain_ok. Qed.
(** with exploration: at most alpha times the distance beyond, and never beyond the bounds *)
Theorem C85_hypercube bs alpha v w r v' w' c r' : 0 < alpha -> unit_numbers (us r) -> all_inside bs v -> all_inside bs w -> hypercube (Vec bs) alpha v w r = Ok (v', w', (c, r')) ->
  crossed (fun i x y x' y' => (i < length bs)%nat -> widened alpha x y x' /\ widened alpha x y y') v w v' w' /\ all_inside bs v' /\ all_inside bs w'.
Proof.
  intros Ha G I1 I2 H. assert (C := hypercube_wide_ok _ _ _ _ _ _ _ _ _ Ha G H). split.
  - destruct C as (L1 & L2 & L3 & RR & S). split; auto. split; auto. split; auto. split; auto. intros i x y x' y' Hx Hy Hx' Hy' Hi. destruct (RR i x y x' y' Hx Hy Hx' Hy') as (_ & K).
    destruct (nth_error bs i) as [b|] eqn:E; [|apply nth_error_None in E; lia]. destruct (K b) as (_ & _ & W); [apply bound_vec; auto|eauto|eauto|].
    assert (D : forall z, z = x' \/ z = y' -> widened alpha x y z).
    { intros z Hz. specialize (W z Hz). exists (std_min x y), (std_max x y). assert (Mn := min_spec x y). assert (Mx := max_spec x y).
      assert (Ab : Qabs (x - y) == std_max x y - std_min x y) by (apply Qabs_case; intros; destruct Mn as [[M1 ?]|[M1 ?]], Mx as [[M2 ?]|[M2 ?]]; rewrite M1, M2; lra).
      rewrite Ab in W. split; [destruct (Qlt_le_dec x y); [left|right]; split; lra|]. split; [lra|]. lra. }
    auto.
  - apply (crossed_inside _ _ _ _ _ _ C I1 I2). intros i x y x' y' b Hb Ix Iy (_ & K). destruct (K b) as (? & ? & _); auto. apply bound_vec. auto.
Qed.
(** it tells that it changed something exactly when the parents differ somewhere *)
Theorem C85_hypercube_flag vb alpha v w r v' w' c r' : hypercube vb alpha v w r = Ok (v', w', (c, r')) ->
  (c = true <-> exists j x y, nth_error v j = Some x /\ nth_error w j = Some y /\ ~ x == y).
Proof. apply hypercube_flag. Qed.
Theorem C85_hypercube_refuses vb alpha v w r : alpha < 0 -> hypercube vb alpha v w r = Throw.
Proof. intros H. unfold hypercube. apply qltb_lt in H. rewrite H. auto. Qed.
Theorem C85_hypercube_total bs alpha v w r : 0 <= alpha -> (length v <= length w)%nat -> (length v <= length bs)%nat -> (3 * length v <= length (us r))%nat -> exists o, hypercube (Vec bs) alpha v w r = Ok o.
Proof.
  intros Ha L B U. apply hypercube_total; auto. intros j Hj. destruct (nth_error bs j) as [b|] eqn:E; [|apply nth_error_None in E; lia]. exists b. apply bound_vec. auto.
Qed.
Example C85_hypercube_example : exists v' w' s, hypercube (Vec [Interval 0 10; Below 0]) 1 [9; 1] [5; 1] (Rand [1 # 2; 1 # 4; 1 # 10] []) = Ok (v', w', s) /\
  pointwise Qeq v' [13 # 4; 1] /\ pointwise Qeq w' [53 # 8; 1] /\ fst s = true.
Proof.
  do 3 eexists. split; [vm_compute; reflexivity|].
  split; [|split]; [| |reflexivity]; (split; [reflexivity|]); same_values.
Qed.

(** uniform crossover: coordinates are kept or exchanged, and the flag is right *)
Theorem C85_uniform p v w r v' w' c r' : real_ux p v w r = Ok (v', w', (c, r')) ->
  crossed (fun _ x y x' y' => (x' = x /\ y' = y) \/ (x' = y /\ y' = x)) v w v' w' /\
  (c = true <-> exists j x y x' y', nth_error v j = Some x /\ nth_error w j = Some y /\ nth_error v' j = Some x' /\ nth_error w' j = Some y' /\ ~ (x' == x /\ y' == y)).
Proof. apply ux_ok. Qed.
Theorem C85_uniform_total p v w r : (length v <= length w)%nat -> (length v <= length (us r))%nat -> exists o, real_ux p v w r = Ok o.
Proof. apply ux_total. Qed.
Example C85_uniform_example : exists s, real_ux (1 # 2) [1; 2; 3] [4; 5; 3] (Rand [1 # 3; 2 # 3; 1 # 3] []) = Ok ([4; 2; 3], [1; 5; 3], s) /\ fst s = true.
Proof. eexists. split; vm_compute; reflexivity. Qed.
(** the documentation announces an exception when the sizes differ: it is built but not thrown, and the second vector is read beyond its end *)
Theorem C89_uniform_crossover_sizes_refuted p v w r : (length w < length v)%nat -> (length v <= length (us r))%nat -> real_ux p v w r = UB.
Proof.
  unfold real_ux. match goal with |- context [each2 ?g _ _ _ _] => set (f := g) end. generalize false as c, 0%nat as i. revert w r. induction v as [|x v IH]; intros w r c i L U; [cbn in L; lia|].
  cbn [each2]. destruct w as [|y w]; auto. cbn in L, U. unfold f at 1. destruct r as [[|u t] z]; [cbn in U; lia|]. unfold flip, uniform. cbn [us zs rbind]. cbn in U.
  destruct (_ && _)%bool; cbn [rbind]; rewrite IH; auto; cbn; lia.
Qed.

Section Power.
Variable power : Q -> Q -> Q.
(** SBX: before they are brought back into the bounds the children have the sum of the parents, and beta times their difference *)
Theorem C85_sbx bs eta v w r v' w' r' : Forall proper bs -> unit_numbers (us r) -> all_inside bs v -> all_inside bs w -> sbx power (Vec bs) eta v w r = Ok (v', w', r') ->
  all_inside bs v' /\ all_inside bs w' /\
  crossed (fun i x y x' y' => exists b x1 y1 u beta, nth_error bs i = Some b /\ 0 <= u < 1 /\
     beta = (if Qle_bool u (1 # 2) then power (2 * u) (1 / (eta + 1)) else power (1 / (2 * (1 - u))) (1 / (eta + 1))) /\
     x1 + y1 == x + y /\ y1 - x1 == beta * (y - x) /\ (inside b x1 -> x' = x1) /\ (inside b y1 -> y' = y1)) v w v' w'.
Proof.
  intros P G I1 I2 H. assert (Pb : forall i b, bound_at (Vec bs) i = Ok b -> proper b) by (intros i b Hb; apply bound_vec in Hb; rewrite Forall_forall in P; apply P; eapply nth_error_In; eauto).
  assert (C := sbx_ok power _ _ _ _ _ _ _ _ Pb G H).
  destruct (crossed_inside _ _ _ _ _ _ C I1 I2) as (K1 & K2).
  { intros i x y x' y' b Hb _ _ (b' & u & Hb' & _ & J1 & J2 & _). apply bound_vec in Hb'. assert (b' = b) by congruence. subst. auto. }
  split; auto. split; auto. destruct C as (L1 & L2 & L3 & RR & S). split; auto. split; auto. split; auto. split; auto. intros i x y x' y' Hx Hy Hx' Hy'.
  destruct (RR i x y x' y' Hx Hy Hx' Hy') as (b & u & Hb & U & _ & _ & E1 & E2 & E3 & E4). apply bound_vec in Hb. exists b. do 2 eexists. exists u, (sbx_beta power eta u).
  split; auto. split; auto. split; [reflexivity|]. split; [exact E1|]. split; [exact E2|]. split; auto.
Qed.
End Power.
Example C85_sbx_example : exists v' w' r', sbx (fun x _ => x) (Vec [Interval 0 10; Interval 0 10]) 1 [9; 2] [5; 4] (Rand [9 # 10; 1 # 4] []) = Ok (v', w', r') /\ pointwise Qeq v' [3; 5 # 2] /\ pointwise Qeq w' [3; 7 # 2].
Proof.
  do 3 eexists. split; [vm_compute; reflexivity|].
  split; (split; [reflexivity|]); same_values.
Qed.

(** ** C86: mutations of real vectors *)
Theorem C86_uniform eps p v r v' c r' : 0 <= eps -> unit_numbers (us r) -> uniform_homogeneous eps p v r = Ok (v', (c, r')) ->
  pointwise (fun x y => Qabs (y - x) <= eps) v v' /\ (c = false -> v' = v).
Proof. intros He G H. destruct (homogeneous_ok _ _ _ _ _ _ _ He G H) as (L & R & K). split; auto. split; auto. Qed.
Theorem C86_uniform_total eps p v r : (2 * length v <= length (us r))%nat -> exists v' s, uniform_homogeneous eps p v r = Ok (v', s).
Proof. apply homogeneous_total. Qed.
Theorem C86_uniform_bounded bs eps ps v r v' c r' : Forall not_empty bs -> Forall (fun e => 0 <= e) eps -> unit_numbers (us r) -> all_inside bs v -> uniform_bounded bs eps ps v r = Ok (v', (c, r')) ->
  length v' = length v /\ all_inside bs v' /\ (c = false -> v' = v) /\
  (forall i x y, nth_error v i = Some x -> nth_error v' i = Some y -> y = x \/ exists e, nth_error eps i = Some e /\ Qabs (y - x) <= e).
Proof. intros N He G I H. destruct (uniform_bounded_ok _ _ _ _ _ _ _ _ N He G I H) as (L & _ & J & K & F). auto. Qed.
Theorem C86_uniform_bounded_total bs eps ps v r : length v = length bs -> (length v <= length eps)%nat -> (length v <= length ps)%nat -> (2 * length v <= length (us r))%nat ->
  exists v' s, uniform_bounded bs eps ps v r = Ok (v', s).
Proof. apply uniform_bounded_total. Qed.
Theorem C86_wrong_size bs eps ps no v r : length v <> length bs -> uniform_bounded bs eps ps v r = Throw /\ det_bounded no bs eps v r = Throw.
Proof. intros N. unfold uniform_bounded, det_bounded. apply Nat.eqb_neq in N. rewrite N. auto. Qed.
Example C86_uniform_example : exists v' s, uniform_bounded [Interval 0 10; Below 0; NoBounds] [2; 3; 1] [1; 1; 0] [9; 1; 5] (Rand [0; 1 # 3; 0; 1 # 2; 0] []) = Ok (v', s) /\ pointwise Qeq v' [8; 2; 5] /\ fst s = true.
Proof.
  do 2 eexists. split; [vm_compute; reflexivity|]. split; [|reflexivity].
  split; [reflexivity|]; same_values.
Qed.
(** the deterministic mutation changes at most the announced number of coordinates *)
Theorem C86_deterministic no bs eps v r v' r' : Forall not_empty bs -> Forall (fun e => 0 <= e) eps -> unit_numbers (us r) -> all_inside bs v -> det_bounded no bs eps v r = Ok (v', r') ->
  differ_at_most no v v' /\ all_inside bs v'.
Proof. intros N He G I H. unfold det_bounded in H. destruct (_ =? _)%nat; [|discriminate]. eapply det_loop_ok; eauto. Qed.
Theorem C86_deterministic_total no bs eps v r : (0 < length v)%nat -> length v = length bs -> (length v <= length eps)%nat -> unit_numbers (us r) -> (2 * no <= length (us r))%nat ->
  exists o, det_bounded no bs eps v r = Ok o.
Proof. intros Hv Lb Le G U. unfold det_bounded. rewrite Lb, Nat.eqb_refl. apply det_loop_total; auto. Qed.
Example C86_deterministic_example : exists v' r', det_bounded 1 [Interval 0 10; Below 0] [2; 3] [9; 1] (Rand [2 # 3; 1 # 2] []) = Ok (v', r') /\ pointwise Qeq v' [9; 2].
Proof.
  do 2 eexists. split; [vm_compute; reflexivity|].
  split; [reflexivity|]; same_values.
Qed.
(** Gaussian mutations keep to the bounds *)
Theorem C86_normal bs sg p v r v' c r' : Forall proper bs -> unit_numbers (us r) -> normal_mutation (Vec bs) sg p v r = Ok (v', (c, r')) ->
  length v' = length v /\ (all_inside bs v -> all_inside bs v') /\ (c = false -> v' = v).
Proof. intros P G H. destruct (normal_each_ok _ _ (covers_vec bs P) (fun _ => Ok sg) p v r v' c r' G H) as (L & _ & I & K & _). auto. Qed.
Theorem C86_normal_vec bs sg p v r v' c r' : Forall proper bs -> unit_numbers (us r) -> normal_vec (Vec bs) sg p v r = Ok (v', (c, r')) ->
  length v' = length v /\ (all_inside bs v -> all_inside bs v') /\ (c = false -> v' = v).
Proof. intros P G H. destruct (normal_each_ok _ _ (covers_vec bs P) (fun i => of_opt (nth_error sg i)) p v r v' c r' G H) as (L & _ & I & K & _). auto. Qed.
(** without bounds each coordinate is kept, or moved by sigma times a normal number *)
Theorem C86_normal_unbounded sg p v r v' c r' : normal_mutation Dummy sg p v r = Ok (v', (c, r')) ->
  pointwise (fun x y => y = x \/ exists z, In z (zs r) /\ y == x + sg * z) v v' /\ (c = false -> v' = v).
Proof.
  intros H. unfold normal_mutation in H. match type of H with each ?g _ _ _ = _ => set (f := g) in * end.
  assert (Q : forall i x (a : bool * rand) y a', incl (zs (snd a)) (zs r) -> f i x a = Ok (y, a') -> incl (zs (snd a')) (zs r) /\ (y = x \/ exists z, In z (zs r) /\ y == x + sg * z)).
  { intros i x [c0 r0] y a' Ia F. cbn [snd] in Ia. unfold f in F. apply rbind_ok in F as ([b r1] & F1 & F). unfold flip in F1. apply rbind_ok in F1 as ([u r2] & F1 & F2). injection F2 as _ <-. apply uniform_ok in F1 as (_ & Z1).
    destruct b; [|injection F as <- <-; cbn; rewrite Z1; auto]. apply rbind_ok in F as ([z r3] & F3 & F). apply normal_ok in F3 as (Z3 & _). cbn [bound_at rbind] in F. apply rbind_ok in F as ([y0 r4] & F4 & F). injection F as <- <-.
    cbn in F4. injection F4 as <- <-. cbn [snd]. split.
    - intros q Hq. apply Ia. rewrite <- Z1, Z3. right. auto.
    - right. exists z. split; [apply Ia; rewrite <- Z1, Z3; left; auto|reflexivity]. }
  destruct (each_inv _ _ _ Q v O (false, r) v' (c, r') (incl_refl _) H) as (_ & L & R). split; [split; auto|].
  intros ->. apply (each_flag f) in H; [tauto|]. intros i x c0 r0 y r1 F. unfold f in F. apply rbind_ok in F as ([b r2] & F1 & F). destruct b.
  - apply rbind_ok in F as ([z r3] & F2 & F). apply rbind_ok in F as (bd & Eb & F). apply rbind_ok in F as ([y0 r4] & F3 & F). injection F as _ F _. discriminate.
  - injection F as -> -> _. auto.
Qed.
Example C86_normal_example : exists v' s, normal_mutation (Vec [Interval 0 10; NoBounds]) 2 1 [9; 1] (Rand [0; 0] [1; - (3)]) = Ok (v', s) /\ pointwise Qeq v' [9; - (5)] /\ fst s = true.
Proof.
  do 2 eexists. split; [vm_compute; reflexivity|]. split; [|reflexivity].
  split; [reflexivity|]; same_values.
Qed.
(** the constructors are meant to scale epsilon (and sigma) to the range of each coordinate: they multiply by it twice *)
Theorem C89_scaling_refuted e mn mx : mn < mx -> ~ e == 0 -> ~ e == 1 -> exists x, scaled [Interval mn mx] e = [x] /\ x == e * e * (mx - mn) /\ ~ x == e * (mx - mn).
Proof.
  intros M E0 E1. eexists. split; [reflexivity|]. split; [cbn; ring|]. cbn. intros K. assert (Z : e * (mx - mn) * (e - 1) == 0) by lra.
  apply Qmult_integral in Z as [Z|Z]; [apply Qmult_integral in Z as [Z|Z]; [contradiction|lra]|]. apply E1. lra.
Qed.
(** without bounds the deterministic mutation replaces coordinates instead of moving them: one mutation of range eps takes 100 to a value below eps *)
Theorem C89_deterministic_unbounded_refuted eps x u : 0 <= eps -> 0 <= u < 1 -> 2 * eps < x ->
  exists y, det_homogeneous 1 eps [x] (Rand [0; u] []) = Ok ([y], Rand [] []) /\ eps < Qabs (y - x).
Proof.
  intros He U X. eexists. unfold det_homogeneous, random, uniform. cbn [us zs rbind length]. change (Z.to_nat (Qfloor (0 * inject_Z (Z.of_nat 1)))) with 0%nat. cbn [upd of_opt rbind]. split; [reflexivity|]. apply Qabs_case; intros; nra.
Qed.
(** without bounds the vector of sigmas has as many zeros as the integer part of sigma: any sigma below 1 leads to a read beyond its end *)
Theorem C89_normal_vec_unbounded_refuted sg p x v u z r : 0 <= sg -> sg < 1 -> u < p -> normal_vec Dummy (normal_vec_unbounded sg) p (x :: v) (Rand (u :: us r) (z :: zs r)) = UB.
Proof.
  intros H0 H1 Hu. assert (E : normal_vec_unbounded sg = []).
  { unfold normal_vec_unbounded, qtrunc. assert (K : Qle_bool 0 sg = true) by (apply Qle_bool_iff; auto). rewrite K.
    assert (F : Qfloor sg = 0%Z). { assert (F1 := Qfloor_le sg). assert (F2 := Qlt_floor sg). assert (A : (Qfloor sg < 1)%Z) by (rewrite Zlt_Qlt; change (inject_Z 1) with 1; lra).
      assert (B : (-1 < Qfloor sg)%Z). { rewrite Zlt_Qlt. rewrite inject_Z_plus in F2. change (inject_Z 1) with 1 in F2. change (inject_Z (-1)) with (- (1)). lra. } lia. }
    rewrite F. auto. }
  rewrite E. unfold normal_vec. cbn [each]. unfold flip, uniform. cbn [us zs rbind]. apply qltb_lt in Hu. rewrite Hu. auto.
Qed.

(** ** C87: evolution strategies *)
Section Functions.
Variables (expo sine cosine : Q -> Q) (pi : Q).
(** one deviation: it is multiplied by exp(tau N(0,1)) and kept above the minimum; every variable moves by the new deviation times its own normal number *)
Theorem C87_simple bs tau v dev r v' dev' r' : Forall proper bs -> unit_numbers (us r) -> es_simple expo (Vec bs) tau v dev r = Ok (v', dev', r') ->
  length v' = length v /\ (1 # 10 ^ 40) <= dev' /\ all_inside bs v' /\ exists z0 rest, zs r = z0 :: rest /\ (dev' = dev * expo (tau * z0) \/ (dev' = (1 # 10 ^ 40) /\ dev * expo (tau * z0) < (1 # 10 ^ 40))).
Proof.
  intros P G H. destruct (es_simple_ok expo (Vec bs) _ _ _ _ _ _ _ P G H) as (L & D & I & z0 & z & rest & Z & _ & E & _). split; auto. split; auto. split; auto. exists z0, (z ++ rest). auto.
Qed.
Theorem C87_simple_unbounded tau v dev r v' dev' r' : unit_numbers (us r) -> es_simple expo Dummy tau v dev r = Ok (v', dev', r') ->
  exists z0 z rest, zs r = z0 :: z ++ rest /\ length z = length v /\ v' = map (fun '(x, z) => x + dev' * z) (combine v z).
Proof.
  intros G H. destruct (es_simple_ok expo Dummy _ _ _ _ _ _ _ (Forall_nil _) G H) as (_ & _ & _ & z0 & z & rest & Z & Lz & _ & K). exists z0, z, rest. auto.
Qed.
(** a deviation for each variable *)
Theorem C87_stdev bs taul taug v ds r v' ds' r' : Forall proper bs -> unit_numbers (us r) -> length ds = length v -> es_stdev expo (Vec bs) taul taug v ds r = Ok (v', ds', r') ->
  length v' = length v /\ length ds' = length v /\ all_inside bs v' /\
  exists g rest, zs r = g :: rest /\ forall i d d', nth_error ds i = Some d -> nth_error ds' i = Some d' -> (1 # 10 ^ 40) <= d' /\
    exists z, In z rest /\ (d' = d * expo (taug * g + taul * z) \/ (d' = (1 # 10 ^ 40) /\ d * expo (taug * g + taul * z) < (1 # 10 ^ 40))).
Proof.
  intros P G Ld H. destruct (es_stdev_ok expo (Vec bs) _ _ _ _ _ _ _ _ P G H) as (L1 & L2 & _ & I & _ & g & rest & Z & K). split; auto. split; [lia|]. split; auto. exists g, rest. split; auto.
  intros i d d' Hd Hd'. destruct (nth_error v i) as [x|] eqn:Ex; [|apply nth_error_None in Ex; apply nth_error_lt in Hd; lia]. destruct (K i x d d' Ex Hd Hd') as (A & z1 & z2 & B1 & _ & B2 & _). split; auto. exists z1. auto.
Qed.
Theorem C87_stdev_unbounded taul taug v ds r v' ds' r' : unit_numbers (us r) -> es_stdev expo Dummy taul taug v ds r = Ok (v', ds', r') ->
  forall i x d', nth_error v i = Some x -> nth_error ds' i = Some d' -> exists z, In z (zs r) /\ nth_error v' i = Some (x + d' * z).
Proof.
  intros G H i x d' Hx Hd'. destruct (es_stdev_ok expo Dummy _ _ _ _ _ _ _ _ (Forall_nil _) G H) as (L1 & L2 & L3 & _ & _ & g & rest & Z & K).
  destruct (nth_error ds i) as [d|] eqn:Ed; [|apply nth_error_None in Ed; apply nth_error_lt in Hd'; lia]. destruct (K i x d d' Hx Ed Hd') as (_ & z1 & z2 & _ & B & _ & E). exists z2. split; [rewrite Z; right; auto|]. auto.
Qed.
(** correlated mutations: the deviations stay above the minimum, the angles in [-pi, pi], the variables in their bounds *)
Theorem C87_full bs taul taug taub v ds an r v' ds' an' r' : (forall a, sine a * sine a + cosine a * cosine a == 1) -> 0 < pi -> v <> [] -> length ds = length v -> Forall proper bs -> unit_numbers (us r) ->
  es_full expo sine cosine pi (Vec bs) taul taug taub v ds an r = Ok (v', ds', an', r') ->
  length v' = length v /\ length ds' = length v /\ length an' = length an /\ Forall (fun d => (1 # 10 ^ 40) <= d) ds' /\ Forall (fun a => - pi <= a /\ a <= pi) an' /\ all_inside bs v'.
Proof.
  intros Py Pp Nv Ld P G H. destruct (es_full_ok expo sine cosine pi Py (Vec bs) _ _ _ _ _ _ _ _ _ _ _ Pp Nv Ld P G H) as (L1 & L2 & L3 & D & A & I & _).
  split; auto. split; [lia|]. split; auto. split; auto. split; auto. eapply Forall_impl; [|exact A]. cbn. intros a Ha. apply Qabs_Qle_condition in Ha. auto.
Qed.
(** the rotations keep the length of the step *)
Theorem C87_rotation taul taug taub v ds an r v' ds' an' r' : (forall a, sine a * sine a + cosine a * cosine a == 1) -> 0 < pi -> v <> [] -> length ds = length v -> unit_numbers (us r) ->
  es_full expo sine cosine pi Dummy taul taug taub v ds an r = Ok (v', ds', an', r') ->
  exists st z, length z = length v /\ incl z (zs r) /\ v' = map (fun '(x, s) => x + s) (combine v st) /\ length st = length v /\ norm2 st == norm2 (map (fun '(d, z) => d * z) (combine ds' z)).
Proof.
  intros Py Pp Nv Ld G H. destruct (es_full_ok expo sine cosine pi Py Dummy _ _ _ _ _ _ _ _ _ _ _ Pp Nv Ld (Forall_nil _) G H) as (_ & _ & _ & _ & _ & _ & g & zd & za & z & rest & st & Z & _ & _ & Lz & _ & Ls & N & _ & V).
  exists st, z. split; auto. split; [|auto]. intros q Hq. rewrite Z. right. rewrite !in_app_iff. auto.
Qed.
(** but the first variable is never rotated: its step is its own deviation times a normal number, whatever the angles *)
Theorem C89_first_variable_refuted taul taug taub x v d ds an r v' ds' an' r' : (forall a, sine a * sine a + cosine a * cosine a == 1) -> 0 < pi -> length (d :: ds) = length (x :: v) -> unit_numbers (us r) ->
  es_full expo sine cosine pi Dummy taul taug taub (x :: v) (d :: ds) an r = Ok (v', ds', an', r') ->
  exists d' z, nth_error ds' 0 = Some d' /\ In z (zs r) /\ nth_error v' 0 = Some (x + d' * z).
Proof.
  intros Py Pp Ld G H. assert (Nv : x :: v <> []) by discriminate. destruct (es_full_ok expo sine cosine pi Py Dummy _ _ _ _ _ _ _ _ _ _ _ Pp Nv Ld (Forall_nil _) G H) as (_ & L2 & _ & _ & _ & _ & g & zd & za & z & rest & st & Z & _ & _ & Lz & _ & Ls & _ & F & V).
  destruct ds' as [|d' ds']; [cbn in L2; lia|]. destruct z as [|z0 z]; [cbn in Lz; lia|]. destruct st as [|s st]; [cbn in Ls; lia|]. cbn in F. injection F as ->. exists d', z0. split; auto.
  split; [rewrite Z; right; rewrite !in_app_iff; right; right; left; left; auto|]. rewrite (V eq_refl). auto.
Qed.
(** of the n(n-1)/2 angles, the first n-1 play no part in the rotations *)
Theorem C89_unused_angles_refuted a b an st n : length a = length b -> (length a = n - 1)%nat -> length (a ++ an) = (n * (n - 1) / 2)%nat -> (0 < n)%nat ->
  outer sine cosine (seq 0 (n - 1)) (a ++ an) st 0 = outer sine cosine (seq 0 (n - 1)) (b ++ an) st 0.
Proof.
  intros L La Ln Hn. apply outer_angles; auto. assert (K := seq_sum (n - 1)). rewrite app_length in Ln.
  assert (E : (n * (n - 1) = 2 * ((n - 1) + list_sum (seq 0 (n - 1))))%nat) by (destruct n as [|[|n]]; cbn [Nat.sub] in *; nia).
  rewrite E in Ln. rewrite Nat.mul_comm, Nat.div_mul in Ln by lia. lia.
Qed.
(** initialisation: variables in their bounds, one deviation per variable, n(n-1)/2 angles in [-pi, pi) *)
Theorem C87_init bs sg ts r v s a r' : 0 < pi -> Forall proper bs -> unit_numbers (us r) -> es_full_init pi bs sg ts r = Ok (v, s, a, r') ->
  length v = length bs /\ length s = length bs /\ length a = (length bs * (length bs - 1) / 2)%nat /\ all_inside bs v /\ Forall (fun x => - pi <= x /\ x < pi) a /\
  forall i b x, nth_error bs i = Some b -> nth_error s i = Some x -> if ts then exists mn mx, b = Interval mn mx /\ x = sg * (mx - mn) else x = sg.
Proof. apply es_init_ok. Qed.
End Functions.
Example C87_full_example : exists v' ds' an' r', es_full (fun _ => 2) (fun _ => 0) (fun _ => 1) 3 Dummy 1 1 1 [1; 2] [1; 3] [2] (Rand [] [0; 0; 0; 2; 1; 1]) = Ok (v', ds', an', r') /\
  pointwise Qeq v' [3; 8] /\ pointwise Qeq ds' [2; 6] /\ pointwise Qeq an' [1].
Proof.
  do 4 eexists. split; [vm_compute; reflexivity|].
  split; [|split]; (split; [reflexivity|]); same_values.
Qed.
Example C87_init_example : exists v a r', es_full_init 3 [Interval 0 10; Interval (- (1)) 1] (1 # 10) true (Rand [1 # 2; 1 # 4; 1 # 3] []) = Ok (v, [(1 # 10) * (10 - 0); (1 # 10) * (1 - - (1))], a, r') /\
  pointwise Qeq v [5; - (1 # 2)] /\ pointwise Qeq a [- (1)].
Proof.
  do 3 eexists. split; [vm_compute; reflexivity|].
  split; (split; [reflexivity|]); same_values.
Qed.
(** crossovers with discrete variables and intermediate strategy parameters: the child stays made of its two parents *)
Theorem C87_standard_crossover a b r a' c r' : unit_numbers (us r) -> standard_xover exchange intermediate a b r = Ok (a', (c, r')) ->
  same_sizes a a' /\ from_parents (fun x y z => z = x \/ z = y) between a b a' /\ (c = false -> a' = a).
Proof. apply standard_ok; [apply exchange_ok|apply intermediate_ok]. Qed.
(** global crossover: each component is made from those of two individuals of the population, and the fitness is forgotten *)
Theorem C87_global_crossover pop a r a' r' : unit_numbers (us r) -> global_xover exchange intermediate pop a r = Ok (a', r') ->
  same_sizes a a' /\ valid a' = false /\ from_population (fun x y z => z = x \/ z = y) obj pop (obj a') /\ from_population between devs pop (devs a') /\ from_population between angles pop (angles a').
Proof. apply global_ok; [apply exchange_ok|apply intermediate_ok]. Qed.
Example C87_crossover_example :
  (exists a' r', standard_xover exchange intermediate (Es [1; 2] [1] [] true) (Es [3; 4] [2] [] true) (Rand [1 # 3; 2 # 3; 1 # 2] []) = Ok (a', (true, r')) /\ obj a' = [3; 2] /\ pointwise Qeq (devs a') [3 # 2] /\ valid a' = true) /\
  (exists a' r', global_xover exchange intermediate [Es [1; 2] [1] [] true; Es [3; 4] [2] [] true] (Es [9; 9] [9] [] true) (Rand [0; 1 # 2; 0; 1 # 2; 0; 3 # 4; 0; 1 # 2; 1 # 2] []) = Ok (a', r') /\ obj a' = [3; 4] /\ pointwise Qeq (devs a') [3 # 2] /\ valid a' = false).
Proof.
  split; do 2 eexists; (split; [vm_compute; reflexivity|]); (split; [reflexivity|]); (split; [|reflexivity]);
  (split; [reflexivity|]); same_values.
Qed.

(** ** C88: the one-fifth success rule *)
Section Rule.
Context {F : Type}.
Variables (better : F -> F -> bool) (eval : list Q -> F) (p factor threshold : Q) (w : nat).
(** after each call the individual has the fitness of its genes, within the bounds; the step size does not change *)
Theorem C88_call bs st x r st' x' b r' : Forall proper bs -> unit_numbers (us r) -> (forall f, fit x = Some f -> f = eval (genes x)) -> all_inside bs (genes x) ->
  fifth_call better eval (Vec bs) p st x r = Ok (st', x', b, r') ->
  fit x' = Some (eval (genes x')) /\ b = false /\ length (genes x') = length (genes x) /\ all_inside bs (genes x') /\ sigma st' = sigma st.
Proof. intros P G V I H. destruct (call_ok better eval _ p _ _ _ _ _ _ _ bs (covers_vec bs P) G H V) as (? & ? & ? & ? & ?). auto 10. Qed.
(** at the end of a generation sigma is divided by the factor when the successes exceed the threshold fraction of the mutations of the last [w] generations, and multiplied by it otherwise *)
Theorem C88_update vb st hs st' : (0 < w)%nat -> rule_reach better eval vb p factor threshold w st hs -> fifth_update factor threshold st = Ok st' ->
  let m := recent a_mutation w hs in let s := recent a_success w hs in
  ((0 < m)%nat /\ threshold < inject_Z (Z.of_nat s) / inject_Z (Z.of_nat m) -> sigma st' = sigma st / factor) /\
  (~ ((0 < m)%nat /\ threshold < inject_Z (Z.of_nat s) / inject_Z (Z.of_nat m)) -> sigma st' = sigma st * factor).
Proof.
  intros Hw R H m s. assert (K := rule_update_ok better eval vb p factor threshold w st hs st' Hw R H). cbv zeta in K. fold m s in K. rewrite K. clear K. split.
  - intros (A & B). apply Nat.ltb_lt in A. apply qltb_lt in B. rewrite A, B. auto.
  - intros N. destruct (Nat.ltb_spec 0 m) as [A|A]; [|auto]. destruct (qltb threshold _) eqn:B; [|auto]. apply qltb_lt in B. destruct N. auto.
Qed.
Theorem C88_counts vb st hs : (0 < w)%nat -> rule_reach better eval vb p factor threshold w st hs -> list_sum (nb_mut st) = recent a_mutation w hs /\ list_sum (nb_success st) = recent a_success w hs.
Proof. apply rule_counts. Qed.
Theorem C88_update_total vb st hs : (0 < w)%nat -> rule_reach better eval vb p factor threshold w st hs -> exists st', fifth_update factor threshold st = Ok st'.
Proof. apply rule_update_total. Qed.
Theorem C88_factor_refused s : (new_fifth factor s w = Throw <-> 1 <= factor).
Proof. unfold new_fifth. destruct (Qle_bool 1 factor) eqn:E; [apply Qle_bool_iff in E; tauto|]. split; [discriminate|]. intros K. apply Qle_bool_iff in K. congruence. Qed.
(** a window of no generation *)
Theorem C88_empty_window_outside s st : w = 0%nat -> new_fifth factor s w = Ok st -> fifth_update factor threshold st = UB.
Proof. intros ->. unfold new_fifth. destruct (Qle_bool 1 factor); [discriminate|]. intros H. injection H as <-. auto. Qed.
End Rule.
Definition sum_eval (v : list Q) : Q := fold_right Qplus 0 v.
Example C88_example : exists st0 st1 st2 st3 x1 r1, new_fifth (1 # 2) 1 2 = Ok st0 /\
  fifth_call qltb sum_eval (Vec [Interval 0 10]) 1 st0 (Indi [5] None) (Rand [0] [- (1)]) = Ok (st1, x1, false, r1) /\ pointwise Qeq (genes x1) [4] /\
  fifth_update (1 # 2) (1 # 5) st1 = Ok st2 /\ sigma st2 == 2 /\ fifth_update (1 # 2) (1 # 5) st2 = Ok st3 /\ sigma st3 == 4 /\ (exists st4, fifth_update (1 # 2) (1 # 5) st3 = Ok st4 /\ sigma st4 == 2).
Proof.
  do 6 eexists. split; [vm_compute; reflexivity|]. split; [vm_compute; reflexivity|]. split.
  { split; [reflexivity|]; same_values. }
  split; [vm_compute; reflexivity|]. split; [reflexivity|]. split; [vm_compute; reflexivity|]. split; [reflexivity|]. eexists. split; [vm_compute; reflexivity|reflexivity].
Qed.
Print Assumptions C85_segment.
Print Assumptions C85_segment_unbounded.
Print Assumptions C85_segment_total.
Print Assumptions C85_hypercube_inner.
Print Assumptions C85_hypercube.
Print Assumptions C85_hypercube_flag.
Print Assumptions C85_hypercube_refuses.
Print Assumptions C85_hypercube_total.
Print Assumptions C85_uniform.
Print Assumptions C85_uniform_total.
Print Assumptions C89_uniform_crossover_sizes_refuted.
Print Assumptions C85_sbx.
Print Assumptions C86_uniform.
Print Assumptions C86_uniform_total.
Print Assumptions C86_uniform_bounded.
Print Assumptions C86_uniform_bounded_total.
Print Assumptions C86_wrong_size.
Print Assumptions C86_deterministic.
Print Assumptions C86_deterministic_total.
Print Assumptions C86_normal.
Print Assumptions C86_normal_vec.
Print Assumptions C86_normal_unbounded.
Print Assumptions C89_scaling_refuted.
Print Assumptions C89_deterministic_unbounded_refuted.
Print Assumptions C89_normal_vec_unbounded_refuted.
Print Assumptions C87_simple.
Print Assumptions C87_simple_unbounded.
Print Assumptions C87_stdev.
Print Assumptions C87_stdev_unbounded.
Print Assumptions C87_full.
Print Assumptions C87_rotation.
Print Assumptions C89_first_variable_refuted.
Print Assumptions C89_unused_angles_refuted.
Print Assumptions C87_init.
Print Assumptions C87_standard_crossover.
Print Assumptions C87_global_crossover.
Print Assumptions C88_call.
Print Assumptions C88_update.
Print Assumptions C88_counts.
Print Assumptions C88_update_total.
Print Assumptions C88_factor_refused.
Print Assumptions C88_empty_window_outside.
