(** Properties C54, C64, C65: validity of an individual through its life, textual
    persistence of individuals and populations, states. *)
From Coq Require Import Bool Ascii NArith Arith Lia String List.
From Verif Require Import Lib Outcome StreamModel StreamSpec StreamProofs.
Import ListNotations.
Open Scope list_scope.

Definition ex_eo (n : N) : eo N := EO N n false.
Definition ex_inv : eo N := EO N 5%N true.
Definition txt (s : string) : text := list_ascii_of_string s.

(** C54 — after any history the fitness is readable exactly when the last thing done was
    to give one, and then it is that one *)
Theorem C54_fitness_history :
  forall F (fdefault fbad : F) fprint fparse, fitness_text_ok fprint fparse ->
  forall ops, get_fitness F (fold_left (life_step fdefault fbad fprint fparse) ops (eo_new F fdefault)) = expected ops Throw.
Proof. intros F fd fb fp fq H ops. exact (life_spec F fd fb fp fq H ops (eo_new F fd)). Qed.
Print Assumptions C54_fitness_history.
Example C54_history_ex :
  fitness_text_ok print_unsigned n_parse /\
  let run := fun ops => get_fitness N (fold_left (life_step 0%N 99%N print_unsigned n_parse) ops (eo_new N 0%N)) in
  run [] = Throw /\ run [Evaluate 4%N; Invalidate] = Throw /\ run [Invalidate; Evaluate 4%N; Evaluate 6%N] = Ok 6%N /\
  run [Evaluate 4%N; Restore (ex_eo 12) (txt "x")] = Ok 12%N /\ run [Evaluate 4%N; Restore ex_inv []] = Throw.
Proof. split; [exact n_text_ok|]. repeat split; reflexivity. Qed.
(** comparisons throw exactly when one of the fitnesses is not readable *)
Theorem C54_comparison :
  forall F (ltb : F -> F -> bool) (a b : eo F),
  eo_lt F ltb a b = match get_fitness F a, get_fitness F b with Ok x, Ok y => Ok (ltb x y) | _, _ => Throw end /\
  eo_gt F ltb a b = match get_fitness F a, get_fitness F b with Ok x, Ok y => Ok (ltb y x) | _, _ => Throw end.
Proof.
  intros F ltb a b. split; [exact (lt_spec F ltb a b _ eq_refl)|].
  unfold eo_gt, get_fitness. destruct (inv F a), (inv F b); cbn; auto. rewrite negb_involutive. auto.
Qed.
Print Assumptions C54_comparison.
Example C54_comparison_ex : eo_gt N N.ltb (ex_eo 4) (ex_eo 3) = Ok true /\ eo_lt N N.ltb (ex_eo 4) ex_inv = Throw.
Proof. split; reflexivity. Qed.
(** reading from an exhausted or failed stream makes any individual valid, with whatever
    fitness it had before (finding) *)
Theorem C96_exhausted_stream_refuted :
  forall F (fdefault fbad : F) fparse (ws : text) b, blank ws ->
  get_fitness F (eo_new F fdefault) = Throw /\
  get_fitness F (fst (eo_read F fbad fparse (eo_new F fdefault) (Stream ws b))) = Ok fdefault.
Proof.
  intros F fd fb fp ws b Hb. split; [reflexivity|]. unfold eo_read, read_word. cbn [failed chars].
  destruct b; [reflexivity|]. rewrite <- (app_nil_r ws), skip_ws_app by exact Hb. reflexivity.
Qed.
Print Assumptions C96_exhausted_stream_refuted.

(** C64 — printing then reading restores an individual, whatever it is read into *)
Theorem C64_vector :
  forall F (fbad : F) fprint fparse A aprint aread umax,
  fitness_text_ok fprint fparse -> atom_text_ok aprint aread ->
  restores (vec_print F fprint A aprint) (vec_read F fbad fparse A aread umax) same_vec
    (fun x => (N.of_nat (List.length (atoms F A x)) <= umax)%N).
Proof. intros F fb fp fq A ap ar umax Hf Ha. exact (vec_restores F fb fp fq Hf umax A ap ar Ha). Qed.
Print Assumptions C64_vector.
Example C64_vector_ex :
  atom_text_ok print_unsigned n_read /\
  vec_print N print_unsigned N print_unsigned (Vec N N (ex_eo 42) [7%N; 10%N]) = txt "42  2 7 10 " /\
  vec_read N 0%N n_parse N n_read 4294967295 (Vec N N ex_inv [1%N]) (Stream (txt "  42  2 7 10  INVALID") false) =
    Ok (Vec N N (ex_eo 42) [7%N; 10%N], Stream (txt "  INVALID") false).
Proof. split; [exact n_atom_ok|]. split; reflexivity. Qed.
Theorem C64_bits :
  forall F (fbad : F) fprint fparse umax, fitness_text_ok fprint fparse ->
  restores (bits_print F fprint) (fun x s => Ok (bits_read F fbad fparse umax x s)) same_bits
    (fun x => loci F x <> [] /\ (N.of_nat (List.length (loci F x)) <= umax)%N).
Proof. intros F fb fp fq umax Hf. exact (bits_restores F fb fp fq Hf umax). Qed.
Print Assumptions C64_bits.
(** a failed read leaves the bits as they were *)
Theorem C64_bits_failed :
  forall F (fbad : F) fparse umax x s, failed (snd (bits_read F fbad fparse umax x s)) = true ->
  loci F (fst (bits_read F fbad fparse umax x s)) = loci F x.
Proof. exact bits_read_failed. Qed.
Print Assumptions C64_bits_failed.
Example C64_bits_ex :
  bits_print N print_unsigned (Bits N ex_inv [true; false; true]) = txt "INVALID  3 101" /\
  bits_read N 0%N n_parse 4294967295 (Bits N (ex_eo 3) []) (Stream (txt "INVALID  3 101") false) =
    (Bits N (EO N 3%N true) [true; false; true], Stream [] false).
Proof. split; reflexivity. Qed.
(** a bit string with no bit swallows the next word of the stream (finding) *)
Theorem C96_empty_bits_refuted :
  forall F (fbad : F) fprint fparse umax, fitness_text_ok fprint fparse -> (0 < umax)%N ->
  forall y old w rest, w <> [] -> Forall (fun c => is_space c = false) w -> clean_end rest ->
  exists b, bits_read F fbad fparse umax old (Stream (bits_print F fprint (Bits F y []) ++ " "%char :: w ++ rest) false) =
    (Bits F b (map (fun c => if ascii_dec c "1" then true else false) w), Stream rest false).
Proof.
  intros F fb fp fq umax Hf Hu y old w rest Hn Hw Hr. exact (bits_empty_swallows F fb fp fq Hf umax y old w rest Hn Hw Hr Hu).
Qed.
Print Assumptions C96_empty_bits_refuted.
Example C64_empty_ex :
  exists y, pop_read (bits N) (Bits N ex_inv []) (fun x s => Ok (bits_read N 0%N n_parse 4294967295 x s)) 4294967295 []
    (Stream (pop_print (bits N) (bits_print N print_unsigned) [Bits N (ex_eo 1) []; Bits N (ex_eo 2) [true]]) false) = Ok y /\
  fst y = [Bits N (ex_eo 1) [false]; Bits N (ex_eo 1) []].
Proof. eexists. split; reflexivity. Qed.

(** populations of individuals that are restored are restored, in order *)
Theorem C64_population :
  forall I (idefault : I) iprint iread umax same good, restores iprint iread same good ->
  restores (pop_print I iprint) (pop_read I idefault iread umax) (Forall2 same)
    (fun pop => Forall good pop /\ (N.of_nat (List.length pop) <= umax)%N).
Proof. intros I d ip ir umax same good Hi. exact (pop_restores I d ip ir umax same good Hi). Qed.
Print Assumptions C64_population.
Example C64_population_ex :
  let iread := (fun x s => Ok (bits_read N 0%N n_parse 4294967295 x s)) in
  let pop := [Bits N (ex_eo 42) [true; false; true]; Bits N (EO N 5%N true) [false]] in
  pop_print (bits N) (bits_print N print_unsigned) pop = txt "2" ++ [nl] ++ txt "42  3 101" ++ [nl] ++ txt "INVALID  1 0" ++ [nl] /\
  pop_read (bits N) (Bits N ex_inv []) iread 4294967295 [] (Stream (pop_print (bits N) (bits_print N print_unsigned) pop) false) =
    Ok (pop, Stream [nl] false).
Proof. split; reflexivity. Qed.
(** individuals with an eoDualFitness are never restored: reading uses an indeterminate
    feasibility (finding) *)
Theorem C96_dual_fitness_refuted :
  forall V (vprint : V -> text) vread f rest,
  atom_text_ok vprint vread -> vprint (fst f) <> [] -> Forall (fun c => is_space c = false) (vprint (fst f)) ->
  dual_eo_read V vread (Stream (dual_print V vprint f ++ rest) false) = UB.
Proof. exact dual_not_restored. Qed.
Print Assumptions C96_dual_fitness_refuted.
Example C64_dual_ex :
  dual_print N print_unsigned (12%N, Some true) = txt "12 1" /\
  dual_read N n_read (Stream (txt "12 1") false) = (Some (12%N, Some true), Stream [] false) /\
  dual_eo_read N n_read (Stream (txt "12 1") false) = UB.
Proof. repeat split; reflexivity. Qed.

(** C65 — loading a state restores nothing: no object is ever touched, whatever the file
    holds, even one just saved (finding: the section tag searched for contains a newline,
    which no line contains) *)
Theorem C96_load_restores_nothing_refuted :
  forall O (oread : O -> stream -> O) l st, load O oread l st = match l with [] => Throw | _ => Ok st end.
Proof. exact load_nothing. Qed.
Print Assumptions C96_load_restores_nothing_refuted.
Theorem C96_save_load_refuted :
  forall O (oread : O -> stream -> O) (oprint : O -> text) saved l st, save O oprint saved = Ok l -> load O oread l st = Ok st.
Proof.
  intros O oread oprint saved l st H. rewrite load_nothing.
  destruct saved as [|e r]; [discriminate|]. inversion H. reflexivity.
Qed.
Print Assumptions C96_save_load_refuted.
Example C65_save_ex :
  save N print_unsigned [(txt "eoPop", 3%N); (txt "eoRng", 4%N)] =
    Ok (txt "\section{eoPop}" ++ [nl] ++ txt "3" ++ [nl] ++ txt "\section{eoRng}" ++ [nl] ++ txt "4" ++ [nl]) /\
  load N (fun o s => match fst (n_read s) with Some n => n | None => o end)
    (txt "\section{eoPop}" ++ [nl] ++ txt "3" ++ [nl]) [(txt "eoPop", 8%N)] = Ok [(txt "eoPop", 8%N)].
Proof. split; reflexivity. Qed.
(** registration gives distinct names and keeps the order; an object that has a class name
    is always accepted *)
Theorem C65_registration :
  forall O (l : list (option text * O)), Forall (fun e => reg_ok (fst e)) l ->
  exists st, register_all O l [] = Ok st /\ NoDup (map fst st) /\ map snd st = map snd l.
Proof.
  intros O l H. apply (register_all_ok O l []); [|exact H].
  split; [constructor|]. intros name [].
Qed.
Print Assumptions C65_registration.
(** whatever is registered, accepted objects have distinct names *)
Theorem C65_distinct :
  forall O (l : list (option text * O)) st, register_all O l [] = Ok st ->
  NoDup (map fst st) /\ map snd st = map snd l.
Proof. intros O l st H. apply (register_all_distinct O l []); [constructor|exact H]. Qed.
Print Assumptions C65_distinct.
Example C65_distinct_ex :
  (* an object whose class is called "1" takes the name of the next anonymous object *)
  register_all N [(Some (txt "1"), 1%N); (None, 2%N)] [] = Throw.
Proof. reflexivity. Qed.
Theorem C65_class_accepted :
  forall O (st : state O) cls o, exists name, register O st (Some cls) o = Ok (st ++ [(name, o)]) /\ ~ In name (map fst st) /\
  (name = cls \/ exists k, name = cls ++ print_unsigned k).
Proof.
  intros O st cls o. destruct (object_name_class (map fst st) cls) as (n & E & Hi & Hk). exists n.
  unfold register. rewrite E. cbn [rbind].
  destruct (existsb (text_eqb n) (map fst st)) eqn:Ee; [apply existsb_in in Ee; contradiction|auto].
Qed.
Print Assumptions C65_class_accepted.
Example C65_registration_ex :
  register_all N [(Some (txt "eoPop"), 1%N); (None, 2%N); (Some (txt "eoPop"), 3%N); (Some (txt "eoPop"), 4%N)] [] =
  Ok [(txt "eoPop", 1%N); (txt "1", 2%N); (txt "eoPop1", 3%N); (txt "eoPop2", 4%N)].
Proof. reflexivity. Qed.
