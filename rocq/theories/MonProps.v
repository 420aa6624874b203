(** C194-C196: what monitors, dumps, counters and updaters leave behind. *)
From Coq Require Import Arith ZArith String Ascii Lia Bool Sorted List.
From Verif Require Import Lib Outcome MonModel MonSpec MonProofs.
Import ListNotations.

(** ** C194: files and streams *)

(** a file monitor: after any number of calls, with parameters registered, its file holds the old content if it is to be kept, the header once if
    asked for, and the lines of all the calls in order (the last one only if it is to be overwritten); no other file changes *)
Theorem C194_file_monitor (can : text -> bool) (name delim : text) (keep header overwrite : bool) (rows : list (list param)) (f : files) :
  can name = true -> Forall (fun r => r <> []) rows ->
  exists m f1 m' f', fm_make can name delim keep header overwrite f = Ok (m, f1) /\ fm_calls can m rows f1 = Ok (m', f') /\
  content f' name = monitored delim keep header overwrite (content f name) rows /\
  (rows <> [] \/ keep = false -> exists c, f' name = Some c) /\
  (forall n, n <> name -> f' n = f n).
Proof.
  intros C N. unfold fm_make. rewrite C.
  set (m := FMonitor name delim keep header true overwrite).
  set (f1 := if keep then f else put f name []).
  exists m, f1.
  destruct (fm_calls_ok can rows m f1 C N) as (m' & f' & E & A & B & B0); [auto|].
  exists m', f'. split; [destruct keep; reflexivity|]. split; auto. cbn [m fm_name fm_delim fm_keep fm_header fm_first fm_overwrite] in *.
  assert (F1 : content f1 name = if keep then content f name else []) by (unfold f1; destruct keep; auto using content_put).
  split; [|split].
  - unfold monitored. destruct rows as [|r rows]; [rewrite B0 by auto; auto|].
    unfold content at 1. rewrite B by congruence. destruct overwrite; auto.
    rewrite F1. destruct header, keep; cbn [andb negb hd]; cbn [app]; rewrite ?app_nil_r; auto.
  - intros K. destruct rows as [|r rows].
    + rewrite B0 by auto. destruct K as [K|K]; [congruence|]. unfold f1; rewrite K. rewrite put_eq; eauto.
    + rewrite B by congruence. eauto.
  - intros n X. rewrite A by auto. unfold f1. destruct keep; auto. rewrite put_neq; auto.
Qed.
Example C194_file_monitor_ex :
  match fm_make (fun _ => true) (T "out") (T ";") false true false (fun _ => Some (T "old")) with
  | Ok (m, f) => match fm_calls (fun _ => true) m [[(T "gen", T "0"); (T "best", T "7")]; [(T "gen", T "1"); (T "best", T "9")]] f with
    | Ok (_, f) => content f (T "out") = T "gen;best" ++ nl ++ T "0;7" ++ nl ++ T "1;9" ++ nl
    | _ => False end
  | _ => False end.
Proof. vm_compute. reflexivity. Qed.

(** a file that cannot be opened is reported *)
Theorem C194_file_monitor_throws (can : text -> bool) (name delim : text) (keep header overwrite : bool) (r : list param) (f : files) :
  can name = false ->
  (keep = false -> fm_make can name delim keep header overwrite f = Throw) /\
  (forall m, fm_name m = name -> fm_call can m r f = Throw).
Proof. intros C. unfold fm_make, fm_call. split; [intros ->; rewrite C; auto|]. intros m ->. rewrite C. auto. Qed.
Example C194_file_monitor_throws_ex : fm_make (fun _ => false) (T "out") [] false false false (fun _ => None) = Throw.
Proof. reflexivity. Qed.

(** snapshots of one vector, or of two of the same size: one call in [frequency] writes a file of its own, numbered by the calls, with a row per
    index; the files of the other calls stay as they are *)
Theorem C194_snapshots {D} (can : text -> bool) (show : D -> text) (d0 : D) (s : snapshot) (vecs : list (list (list D))) (f : files) :
  0 < sn_freq s -> (forall k, can (sn_dir s ++ T "/" ++ sn_name s ++ decimal k) = true) ->
  Forall (fun v => exists a, v = [a] \/ exists b, v = [a; b] /\ length b = length a) vecs ->
  exists s' f', sn_calls can show s vecs f = Ok (s', f') /\ sn_counter s' = sn_counter s + length vecs /\
  (forall j v, nth_error vecs j = Some v -> (sn_counter s + j) mod sn_freq s = 0 ->
     f' (sn_dir s ++ T "/" ++ sn_name s ++ decimal (sn_counter s + j + 1)) = Some (snapshot_of show d0 v)) /\
  (forall n, (forall j, j < length vecs -> (sn_counter s + j) mod sn_freq s = 0 ->
     n <> sn_dir s ++ T "/" ++ sn_name s ++ decimal (sn_counter s + j + 1)) -> f' n = f n).
Proof.
  intros F C V.
  assert (W : forall v, In v vecs -> sn_write show v = Ok (snapshot_of show d0 v)).
  { intros v I. rewrite Forall_forall in V. destruct (V v I) as (a & [->|(b & -> & L)]); [apply sn_write_one|].
    rewrite (sn_write_many show d0) by auto. reflexivity. }
  destruct (sn_calls_ok can show vecs s f F C) as (s' & f' & E & A & B & G).
  { apply Forall_forall. intros v I. eauto. }
  exists s', f'. split; auto. split; auto. split.
  - intros j v J M. rewrite Nat.add_1_r. apply (B j v); auto. apply W. eapply nth_error_In; eauto.
  - intros n H. apply G. intros j J M. specialize (H j J M). rewrite Nat.add_1_r in H. exact H.
Qed.
Example C194_snapshots_ex :
  match sn_calls (fun _ => true) decimal (Snapshot (T "d") 2 (T "gen") 0) [[[5; 6]]; [[7; 8]]; [[1; 2]; [3; 4]]] (fun _ => None) with
  | Ok (_, f) => f (T "d/gen1") = Some (T "0 5" ++ nl ++ T "1 6" ++ nl) /\ f (T "d/gen2") = None /\ f (T "d/gen3") = Some (T "1 3 " ++ nl ++ T "2 4 " ++ nl)
  | _ => False end.
Proof. vm_compute. auto. Qed.

(** the dumping evaluator: every solution is evaluated as by the wrapped evaluator, and written in a file of its own, numbered in order *)
Theorem C194_dumps {X} (can : text -> bool) (debug : bool) (eval : X -> res X) (print : X -> text) (d : dumper) (xs ys : list X) (f : files) :
  du_single d = false -> (forall k, can (du_name d ++ du_sep d ++ decimal k) = true) -> Forall2 (fun x y => eval x = Ok y) xs ys ->
  exists d' f', du_calls can debug eval print d xs f = Ok (ys, d', f') /\ du_count d' = du_count d + length xs /\
  (forall j y, nth_error ys j = Some y -> f' (du_name d ++ du_sep d ++ decimal (du_count d + j)) = Some (print y ++ nl)) /\
  (forall n, (forall j, j < length xs -> n <> du_name d ++ du_sep d ++ decimal (du_count d + j)) -> f' n = f n).
Proof. intros. apply du_calls_many; auto. Qed.
Example C194_dumps_ex :
  match du_calls (fun _ => true) true (fun x => Ok (x + 1)) decimal (Dumper (T "R") false 0 (T ".")) [3; 4] (fun _ => None) with
  | Ok (ys, d, f) => ys = [4; 5] /\ f (T "R.0") = Some (T "4" ++ nl) /\ f (T "R.1") = Some (T "5" ++ nl) /\ f (T "R.2") = None
  | _ => False end.
Proof. vm_compute. auto. Qed.

(** with a single file it holds the last solution *)
Theorem C194_single_dump {X} (can : text -> bool) (debug : bool) (eval : X -> res X) (print : X -> text) (d : dumper) (xs ys : list X) (f : files) :
  du_single d = true -> can (du_name d) = true -> Forall2 (fun x y => eval x = Ok y) xs ys ->
  exists d' f', du_calls can debug eval print d xs f = Ok (ys, d', f') /\ du_count d' = du_count d + length xs /\
  (forall y, last (map Some ys) None = Some y -> f' (du_name d) = Some (print y ++ nl)) /\ (forall n, n <> du_name d \/ xs = [] -> f' n = f n).
Proof. intros. apply du_calls_single; auto. Qed.
Example C194_single_dump_ex :
  match du_calls (fun _ => true) true (fun x => Ok (x + 1)) decimal (Dumper (T "R") true 0 (T ".")) [3; 4] (fun _ => None) with
  | Ok (_, _, f) => f (T "R") = Some (T "5" ++ nl)
  | _ => False end.
Proof. vm_compute. auto. Qed.

(** a stream monitor without names: the names once, then one line per call with every value in a column of the chosen width *)
Theorem C194_stream_monitor (m : omonitor) (n1 v1 : text) (ps : list param) (rows : list (list param)) (before : text) :
  om_first m = true -> om_names m = false ->
  let cols xs := concat (map (fun x => cell (om_width m) (om_fill m) x ++ om_delim m) xs) in
  os_text (snd (om_calls m (((n1, v1) :: ps) :: rows) (OStream before 0))) =
  before ++ n1 ++ om_delim m ++ cols (map fst ps) ++ nl
         ++ concat (map (fun r => cols (map snd r) ++ nl) (((n1, v1) :: ps) :: rows)).
Proof.
  intros F N cols.
  assert (Fm : forall (g : param -> text) ps o, fold_left (fun o p => put_column m [] (g p) o) ps o = fold_left (fun o x => put_column m [] x o) (map g ps) o).
  { intros g l. induction l as [|p l IH]; intros o; cbn; auto. }
  set (m1 := OMonitor (om_delim m) (om_width m) (om_fill m) false false (om_sep m)).
  assert (R : forall rows o, os_width o = om_width m ->
    os_text (snd (om_calls m1 rows o)) = os_text o ++ concat (map (fun r => cols (map snd r) ++ nl) rows)).
  { clear Fm. induction rows0 as [|r rs IH]; intros o W; cbn [om_calls].
    - cbn. rewrite app_nil_r; auto.
    - unfold om_call. cbn [m1 om_first om_names om_delim om_width om_fill om_sep].
      assert (Fm : forall (ps : list param) o, fold_left (fun o p => put_column m1 [] (snd p) o) ps o = fold_left (fun o x => put_column m1 [] x o) (map snd ps) o).
      { induction ps0 as [|p l IH']; intros o'; cbn; auto. }
      fold m1. rewrite Fm, columns_ok by exact W. rewrite IH by reflexivity. cbn [endl os_text map concat].
      unfold columns, cols. cbn [m1 om_width om_fill om_delim]. rewrite <- !app_assoc. reflexivity. }
  cbn [om_calls].
  assert (C1 : om_call m ((n1, v1) :: ps) (OStream before 0) =
    (m1, OStream (before ++ n1 ++ om_delim m ++ cols (map fst ps) ++ nl ++ cols (v1 :: map snd ps) ++ nl) (om_width m))).
  { unfold om_call. rewrite F, N. fold m1. f_equal.
    rewrite (Fm snd), (Fm fst). cbn [map fst snd]. 
    assert (H : forall x xs, fold_left (fun o x => put_column m [] x o) (x :: xs) (OStream before 0) =
      OStream (before ++ x ++ om_delim m ++ columns m xs) (om_width m)).
    { intros x xs. cbn [fold_left]. rewrite columns_ok by reflexivity. unfold put_column, put_item, setw, pad. cbn [fold_left os_text os_width Nat.sub repeat].
      rewrite !app_nil_r, <- !app_assoc. reflexivity. }
    rewrite H. unfold endl at 2. cbn [os_text os_width]. rewrite columns_ok by reflexivity. unfold endl. cbn [os_text os_width].
    unfold columns. fold cols. change (concat (map _ (map fst ps))) with (cols (map fst ps)). rewrite <- !app_assoc. reflexivity. }
  rewrite C1. rewrite R by reflexivity. cbn [os_text map concat snd]. rewrite <- !app_assoc. reflexivity.
Qed.
Example C194_stream_monitor_ex :
  os_text (snd (om_calls (OMonitor (T "|") 4 " " true false (T ":")) [[(T "g", T "0"); (T "b", T "7")]; [(T "g", T "1"); (T "b", T "9")]] (OStream [] 0)))
  = T "g|b   |" ++ nl ++ T "0   |7   |" ++ nl ++ T "1   |9   |" ++ nl.
Proof. vm_compute. reflexivity. Qed.

(** ** C195: what is documented or expected and does not hold *)

(** with three vectors or more, every column from the second on is the second vector: the others are neither written nor even read *)
Theorem C195_third_vector_refuted {D} (show : D -> text) (v v1 : list D) (r r' : list (list D)) :
  length r = length r' -> sn_write show (v :: v1 :: r) = sn_write show (v :: v1 :: r').
Proof.
  intros L. cbn [sn_write]. destruct (length v1 =? length v); auto. f_equal. cbn [map]. do 2 f_equal.
  revert r' L. induction r as [|x r IH]; intros [|y r'] L; cbn in *; try discriminate; auto. f_equal; auto.
Qed.
Example C195_third_vector_ex :
  sn_write decimal [[1]; [2]; [3]] = Ok (T "1 2 2 " ++ nl) /\ sn_write decimal [[1]; [2]; [3; 4; 5]] = Ok (T "1 2 2 " ++ nl).
Proof. split; vm_compute; reflexivity. Qed.

(** a monitor with no parameter, or a snapshot of no vector, reads an element that does not exist *)
Theorem C195_nothing_registered_refuted {D} (can : text -> bool) (m : fmonitor) (f : files) (show : D -> text) :
  can (fm_name m) = true -> fm_call can m [] f = UB /\ sn_write show [] = UB.
Proof.
  intros C. split; auto. unfold fm_call, fm_print_header. rewrite C.
  destruct (fm_header m && fm_first m && negb (fm_keep m) && negb (fm_overwrite m)); reflexivity.
Qed.

(** "_keep_existing: if true, overwrite any existing file": it is kept; and the header is then never written, even in a file that did not exist *)
Theorem C195_keep_refuted (can : text -> bool) (name delim : text) (header : bool) (rows : list (list param)) (f : files) :
  can name = true -> Forall (fun r => r <> []) rows ->
  exists m f1 m' f', fm_make can name delim true header false f = Ok (m, f1) /\ fm_calls can m rows f1 = Ok (m', f') /\
  content f' name = content f name ++ concat (map (fun r => line delim (map snd r)) rows).
Proof.
  intros C N. destruct (C194_file_monitor can name delim true header false rows f C N) as (m & f1 & m' & f' & A & B & G & _).
  exists m, f1, m', f'. split; auto. split; auto. rewrite G. unfold monitored. rewrite andb_false_r.
  destruct rows; cbn [app map concat]; rewrite ?app_nil_r; auto.
Qed.

(** without assertions, a dump that cannot be written is lost without notice *)
Theorem C195_lost_dump_refuted {X} (can : text -> bool) (eval : X -> res X) (print : X -> text) (d : dumper) (x y : X) (f : files) :
  eval x = Ok y -> can (du_file d) = false ->
  exists d', du_call can false eval print d x f = Ok (y, d', f) /\ du_call can true eval print d x f = Throw.
Proof. intros E C. unfold du_call. rewrite E. cbn [rbind]. rewrite C. eauto. Qed.

(** the first name of a stream monitor is not padded as the values are: the header is not aligned with the columns *)
Theorem C195_aligned_header_refuted (m : omonitor) (n1 v1 : text) (ps : list param) (before : text) :
  om_first m = true -> om_names m = false -> length n1 < om_width m -> length v1 <= om_width m ->
  Forall (fun p : param => length (fst p) <= om_width m /\ length (snd p) <= om_width m) ps ->
  let cols xs := concat (map (fun x => cell (om_width m) (om_fill m) x ++ om_delim m) xs) in
  exists h l, os_text (snd (om_calls m [(n1, v1) :: ps] (OStream before 0))) = before ++ h ++ nl ++ l ++ nl /\
  h = n1 ++ om_delim m ++ cols (map fst ps) /\ l = cols (v1 :: map snd ps) /\ length h < length l.
Proof.
  intros F N L1 L2 L3 cols. exists (n1 ++ om_delim m ++ cols (map fst ps)), (cols (v1 :: map snd ps)). split; [|split; [reflexivity|split; [reflexivity|]]].
  - pose proof (C194_stream_monitor m n1 v1 ps [] before F N) as E. cbv zeta in E. etransitivity; [exact E|]. unfold cols. cbn [map concat snd]. rewrite app_nil_r, <- !app_assoc. reflexivity.
  - assert (K : forall g : param -> text, Forall (fun p => length (g p) <= om_width m) ps ->
      length (cols (map g ps)) = length ps * (om_width m + length (om_delim m))).
    { intros g G. unfold cols. clear L3. induction ps as [|p ps IH]; [reflexivity|]. inversion G; subst. cbn [map concat]. rewrite !app_length, IH by auto.
      unfold cell. rewrite app_length, repeat_length. cbn [length]. lia. }
    change (cols (v1 :: map snd ps)) with ((cell (om_width m) (om_fill m) v1 ++ om_delim m) ++ cols (map snd ps)). rewrite !app_length. unfold cell. rewrite app_length, repeat_length.
    assert (K1 : length (cols (map fst ps)) = length ps * (om_width m + length (om_delim m))) by (apply K; eapply Forall_impl; [|exact L3]; cbn; tauto).
    assert (K2 : length (cols (map snd ps)) = length ps * (om_width m + length (om_delim m))) by (apply K; eapply Forall_impl; [|exact L3]; cbn; tauto).
    rewrite K1, K2. lia.
Qed.
Example C195_aligned_header_ex :
  os_text (snd (om_calls (OMonitor (T "|") 4 " " true false (T ":")) [[(T "g", T "0"); (T "b", T "7")]] (OStream [] 0)))
  = T "g|b   |" ++ nl ++ T "0   |7   |" ++ nl.
Proof. vm_compute. reflexivity. Qed.

(** and the width it leaves on the stream pads whatever the program writes next *)
Theorem C195_stream_left_refuted (m : omonitor) (p : param) (ps : list param) (o : ostream) (s : text) :
  os_text (put_item (om_fill m) s (snd (om_call m (p :: ps) o)))
  = os_text (snd (om_call m (p :: ps) o)) ++ cell (om_width m) (om_fill m) s.
Proof.
  assert (W : forall ps (g : param -> list text) o, os_width o = om_width m ->
    os_width (fold_left (fun o q => put_column m (g q) (snd q) o) ps o) = om_width m).
  { induction ps0 as [|q l IH]; intros g o' H; cbn [fold_left]; auto. }
  unfold om_call. cbn [snd fold_left]. unfold put_item at 1. cbn [os_text]. f_equal.
  unfold endl at 1. cbn [os_width]. unfold pad, cell. rewrite (W ps (fun p => if om_names m then [fst p; om_sep m] else [])) by reflexivity. reflexivity.
Qed.

(** states saved on a timer with no interval: two saves within a second go to the same file *)
Theorem C195_timed_names_refuted : ~ (forall interval first now, (0 <= interval)%Z -> NoDup (saved_numbers interval first now)).
Proof. intros H. specialize (H 0%Z 5%Z [7%Z; 7%Z]). vm_compute in H. specialize (H ltac:(discriminate)). inversion H as [|? ? N _]. apply N. left; auto. Qed.

(** ** C196: counters and updaters *)

(** a counted function behaves as the function, and the counter holds the number of the calls, the one that failed included *)
Theorem C196_counter {A B W} (f : A -> W -> res (B * W)) (c : nat) (l : list A) (s : W) :
  snd (counted_calls f c l s) = plain_calls f l s /\
  (forall q, plain_calls f l s = Ok q -> fst (counted_calls f c l s) = c + length l) /\
  (forall l1 a l2 bs s1, l = l1 ++ a :: l2 -> plain_calls f l1 s = Ok (bs, s1) -> (forall q, f a s1 <> Ok q) ->
     fst (counted_calls f c l s) = c + length l1 + 1).
Proof.
  split; [apply counted_same|]. split.
  - intros q E. rewrite <- (counted_same f l c s) in E. eapply counted_all; eauto.
  - intros l1 a l2 bs s1 -> E N. eapply counted_until; eauto.
Qed.
Example C196_counter_ex :
  counted_calls (fun a s => if a =? 0 then Throw else Ok (a * 2, s + a)) 5 [1; 2; 3] 0 = (8, Ok ([2; 4; 6], 6)) /\
  counted_calls (fun a s => if a =? 0 then Throw else Ok (a * 2, s + a)) 5 [1; 0; 3] 0 = (7, Throw).
Proof. split; reflexivity. Qed.

(** an incrementor adds its step at each call *)
Theorem C196_incrementor (step c : Z) (n : nat) : increments step n c = (c + Z.of_nat n * step)%Z.
Proof. apply increments_ok. Qed.
Example C196_incrementor_ex : increments 3 4 10 = 22%Z.
Proof. reflexivity. Qed.

(** an update by count happens at every interval-th call, no sooner and no later; an interval of zero is a division by zero *)
Theorem C196_counted_update (interval n : nat) :
  (0 < interval -> exists l, counted_updates interval 0 n = Ok l /\ length l = n /\
     forall j, j < n -> (nth j l false = true <-> exists q, S j = q * interval)) /\
  (0 < n -> counted_updates 0 0 n = UB).
Proof.
  split.
  - intros K. destruct (counted_updates_ok interval n 0 K) as (l & E & L & H). exists l. split; auto. split; auto.
    intros j J. rewrite H by auto. cbn [Nat.add]. rewrite Nat.eqb_eq. split.
    + intros M. exists (S j / interval). rewrite (Nat.div_mod (S j) interval) at 1 by lia. lia.
    + intros (q & ->). apply Nat.mod_mul. lia.
  - destruct n; [lia|]. reflexivity.
Qed.
Example C196_counted_update_ex : counted_updates 3 0 7 = Ok [false; false; true; false; false; true; false].
Proof. reflexivity. Qed.

(** an update by time happens at a call exactly when the interval went by since the last update (since the construction for the first one) *)
Theorem C196_timed_update (interval start : Z) (now1 now2 : list Z) (t : Z) :
  let previous := last (timed_updates interval start now1) start in
  timed_updates interval start (now1 ++ t :: now2) =
  timed_updates interval start now1 ++
  (if Z_le_dec (previous + interval) t then t :: timed_updates interval t now2 else timed_updates interval previous now2).
Proof.
  cbv zeta. revert start. induction now1 as [|u r IH]; intros start; cbn [app timed_updates last].
  - destruct (Z_le_dec _ _), (Z.leb_spec (start + interval) t); auto; lia.
  - destruct (Z.leb_spec (start + interval) u).
    + rewrite IH. cbn [app]. f_equal.
      assert (La : last (u :: timed_updates interval u r) start = last (timed_updates interval u r) u).
      { assert (D : forall (l : list Z) x d d', last (x :: l) d = last (x :: l) d').
        { induction l as [|y l IH']; intros x d d'; [reflexivity|]. apply (IH' y). }
        destruct (timed_updates interval u r) as [|b l]; [reflexivity|]. apply (D l b). }
      rewrite La. reflexivity.
    + apply IH.
Qed.
Example C196_timed_update_ex : timed_updates 10 100 [105; 111; 115; 121; 140; 141]%Z = [111; 121; 140]%Z.
Proof. reflexivity. Qed.

(** so that two updates are always an interval apart, whatever the clock does, and the states saved on a timer go to different files *)
Theorem C196_timed_apart (interval start : Z) (now : list Z) : (0 < interval)%Z ->
  StronglySorted (fun a b => a + interval <= b)%Z (start :: timed_updates interval start now) /\ NoDup (saved_numbers interval start now).
Proof.
  intros K.
  assert (S : forall start, StronglySorted (fun a b => a + interval <= b)%Z (start :: timed_updates interval start now)).
  { induction now as [|t r IH]; intros s; cbn [timed_updates].
    - repeat constructor.
    - destruct (Z.leb_spec (s + interval) t); auto.
      specialize (IH t). constructor; auto. inversion IH as [|? ? H1 H2]; subst. constructor; auto.
      eapply Forall_impl; [|exact H2]. cbn. intros; lia. }
  split; auto. unfold saved_numbers. specialize (S start). inversion S as [|? ? H1 _]; subst. clear S.
  apply FinFun.Injective_map_NoDup; [intros a b; lia|].
  induction H1 as [|a l H IH F]; constructor; auto. intros I. rewrite Forall_forall in F. specialize (F a I). lia.
Qed.
Example C196_timed_apart_ex : saved_numbers 10 100 [105; 111; 115; 121]%Z = [11; 21]%Z.
Proof. reflexivity. Qed.
Print Assumptions C194_file_monitor.
Print Assumptions C194_file_monitor_throws.
Print Assumptions C194_snapshots.
Print Assumptions C194_dumps.
Print Assumptions C194_single_dump.
Print Assumptions C194_stream_monitor.
Print Assumptions C195_third_vector_refuted.
Print Assumptions C195_nothing_registered_refuted.
Print Assumptions C195_keep_refuted.
Print Assumptions C195_lost_dump_refuted.
Print Assumptions C195_aligned_header_refuted.
Print Assumptions C195_stream_left_refuted.
Print Assumptions C195_timed_names_refuted.
Print Assumptions C196_counter.
Print Assumptions C196_incrementor.
Print Assumptions C196_counted_update.
Print Assumptions C196_timed_update.
Print Assumptions C196_timed_apart.
