(** Proofs about the files, streams, counters and updaters. *)
From Coq Require Import Arith ZArith String Ascii DecimalString DecimalNat Lia Bool List.
From Verif Require Import Lib Outcome MonModel MonSpec.
Import ListNotations.

Lemma put_eq f n c : put f n c n = Some c.
Proof. unfold put. destruct (text_dec n n); congruence. Qed.
Lemma put_neq f n c m : m <> n -> put f n c m = f m.
Proof. unfold put. destruct (text_dec m n); congruence. Qed.
Lemma content_put f n c : content (put f n c) n = c.
Proof. unfold content. rewrite put_eq; auto. Qed.

Lemma T_inj s s' : T s = T s' -> s = s'.
Proof.
  intros E. rewrite <- (string_of_list_ascii_of_string s), <- (string_of_list_ascii_of_string s').
  unfold T in E. rewrite E. auto.
Qed.

Lemma decimal_inj n m : decimal n = decimal m -> n = m.
Proof.
  unfold decimal. intros E. apply T_inj in E.
  apply Unsigned.to_uint_inj.
  pose proof (NilEmpty.usu (Nat.to_uint n)) as A. rewrite E, NilEmpty.usu in A. congruence.
Qed.

(** * eoFileMonitor *)

Lemma delimited_line d l : l <> [] -> delimited d l = Ok (line d l).
Proof.
  destruct l as [|x r]; [congruence|]. intros _. cbn [delimited]. f_equal. unfold line.
  enough (H : forall y, y ++ concat (map (fun z => d ++ z) r) = join d (y :: r)).
  { rewrite <- H, <- app_assoc. reflexivity. }
  induction r as [|z r IH]; intros y; [cbn; rewrite app_nil_r; auto|].
  cbn [map concat]. rewrite <- app_assoc, IH. reflexivity.
Qed.

Section Monitors.
Context (can : text -> bool).

Lemma fm_call_ok m ps f :
  can (fm_name m) = true -> ps <> [] ->
  exists m' f', fm_call can m ps f = Ok (m', f') /\
    fm_name m' = fm_name m /\ fm_delim m' = fm_delim m /\ fm_keep m' = fm_keep m /\
    fm_header m' = fm_header m /\ fm_overwrite m' = fm_overwrite m /\
    fm_first m' = (if fm_header m && negb (fm_keep m) && negb (fm_overwrite m) then false else fm_first m) /\
    (forall n, n <> fm_name m -> f' n = f n) /\
    f' (fm_name m) = Some (
      if fm_overwrite m then line (fm_delim m) (map snd ps)
      else if fm_header m && fm_first m && negb (fm_keep m)
           then line (fm_delim m) (map fst ps) ++ line (fm_delim m) (map snd ps)
           else content f (fm_name m) ++ line (fm_delim m) (map snd ps)).
Proof.
  intros C P. unfold fm_call, fm_print_header. rewrite C.
  assert (P1 : map fst ps <> []) by (destruct ps; [congruence|discriminate]).
  assert (P2 : map snd ps <> []) by (destruct ps; [congruence|discriminate]).
  destruct m as [n d k h fi o]; cbn [fm_name fm_delim fm_keep fm_header fm_overwrite fm_first] in *.
  destruct h, k, o, fi; cbn [andb negb rbind fm_name fm_delim fm_keep fm_header fm_overwrite fm_first];
    rewrite ?(delimited_line _ _ P1), ?(delimited_line _ _ P2); cbn [rbind fm_name fm_delim];
    rewrite ?(delimited_line _ _ P2); cbn [rbind fm_name];
    eexists; eexists; (split; [reflexivity|]);
    cbn [andb negb rbind fm_name fm_delim fm_keep fm_header fm_overwrite fm_first];
    repeat (split; [reflexivity|]);
    (split; [intros x X; rewrite !put_neq by auto; reflexivity|]);
    rewrite put_eq, ?content_put; reflexivity.
Qed.

Lemma fm_calls_ok rows : forall m f,
  can (fm_name m) = true -> Forall (fun r => r <> []) rows ->
  (fm_first m = true \/ fm_header m = false \/ fm_keep m = true \/ fm_overwrite m = true \/ rows = []
   \/ (fm_first m = false)) ->
  exists m' f', fm_calls can m rows f = Ok (m', f') /\
    (forall n, n <> fm_name m -> f' n = f n) /\
    (rows <> [] ->
     f' (fm_name m) = Some (
      if fm_overwrite m then line (fm_delim m) (map snd (last rows []))
      else (if fm_header m && fm_first m && negb (fm_keep m)
            then line (fm_delim m) (map fst (hd [] rows)) else content f (fm_name m))
           ++ concat (map (fun r => line (fm_delim m) (map snd r)) rows))) /\
    (rows = [] -> f' = f).
Proof.
  induction rows as [|r rows IH]; intros m f C N _; cbn [fm_calls].
  - exists m, f. repeat split; auto. congruence.
  - inversion N as [|? ? N1 N2]; subst.
    destruct (fm_call_ok m r f C N1) as (m1 & f1 & E & A1 & A2 & A3 & A4 & A5 & A6 & A7 & A8).
    rewrite E; cbn [rbind].
    destruct (IH m1 f1) as (m2 & f2 & E2 & B1 & B2 & B3); auto.
    { rewrite A1; auto. } { destruct (fm_first m1); auto 10. }
    exists m2, f2. split; auto. rewrite A1 in *. split.
    { intros n X. rewrite B1, A7; auto. }
    split; [|congruence]. intros _. destruct rows as [|r' rows].
    + rewrite B3, A8 by auto. cbn [last map concat hd]. rewrite app_nil_r.
      destruct (fm_overwrite m); auto. destruct (fm_header m && fm_first m && negb (fm_keep m)); auto.
    + rewrite B2 by congruence. rewrite A2, A3, A4, A5, A6. unfold content at 1. rewrite A8.
      destruct (fm_overwrite m); auto.
      cbn [map concat hd]. f_equal.
      destruct (fm_header m), (fm_first m), (fm_keep m); cbn [andb negb];
        rewrite <- ?app_assoc; reflexivity.
Qed.

(** * eoFileSnapshot *)

Context {D : Type} (show : D -> text) (d0 : D).

Lemma numbered_ok v : forall k,
  numbered show k v = concat (map (fun j => decimal (k + j) ++ T " " ++ show (nth j v d0) ++ nl) (seq 0 (length v))).
Proof.
  induction v as [|x v IH]; intros k; [reflexivity|]. cbn [numbered length seq map concat nth].
  rewrite Nat.add_0_r, <- seq_shift, map_map, IH, <- !app_assoc.
  do 4 f_equal. f_equal. apply map_ext. intros j. rewrite Nat.add_succ_r. reflexivity.
Qed.

Lemma table_row_ok vv k : Forall (fun v => k < length v) vv ->
  table_row show vv k = Ok (concat (map (fun v => show (nth k v d0) ++ T " ") vv)).
Proof.
  induction vv as [|v vv IH]; intros L; cbn [table_row map concat]; auto.
  inversion L as [|? ? L1 L2]; subst. rewrite (nth_error_nth' v d0 L1). cbn [of_opt rbind].
  rewrite IH by auto. cbn [rbind]. rewrite <- app_assoc. reflexivity.
Qed.

Lemma table_ok vv ks : (forall k, In k ks -> Forall (fun v => k < length v) vv) ->
  table show vv ks = Ok (concat (map (row_of show d0 vv) ks)).
Proof.
  induction ks as [|k ks IH]; intros L; cbn [table map concat]; auto.
  rewrite table_row_ok by (apply L; left; auto). cbn [rbind].
  rewrite IH by (intros; apply L; right; auto). cbn [rbind]. unfold row_of at 2. rewrite <- app_assoc. reflexivity.
Qed.

Lemma sn_write_one v : sn_write show [v] = Ok (snapshot_of show d0 [v]).
Proof. cbn [sn_write snapshot_of]. rewrite numbered_ok. reflexivity. Qed.

Lemma sn_write_many v v1 r : length v1 = length v ->
  sn_write show (v :: v1 :: r) = Ok (snapshot_of show d0 (v :: v1 :: map (fun _ => v1) r)).
Proof.
  intros L. cbn [sn_write]. rewrite L, Nat.eqb_refl. rewrite table_ok; [reflexivity|].
  intros k K. apply in_seq in K. constructor; [lia|]. apply Forall_forall. intros x X.
  apply in_map_iff in X as (y & <- & _). lia.
Qed.

Lemma sn_call_ok s vec f : 0 < sn_freq s -> 
  sn_call can show s vec f =
  let s' := Snapshot (sn_dir s) (sn_freq s) (sn_name s) (S (sn_counter s)) in
  if (sn_counter s mod sn_freq s =? 0)
  then if can (sn_file s') then let! t := sn_write show vec in Ok (s', put f (sn_file s') t) else Throw
  else Ok (s', f).
Proof. intros F. unfold sn_call. destruct (sn_freq s); [lia|reflexivity]. Qed.

Definition snap_name (s : snapshot) (k : nat) : text := sn_dir s ++ T "/" ++ sn_name s ++ decimal k.
Lemma snap_name_inj s j k : snap_name s j = snap_name s k -> j = k.
Proof. unfold snap_name. intros E. do 3 apply app_inv_head in E. apply decimal_inj; auto. Qed.

Lemma sn_calls_ok vecs : forall s f, 0 < sn_freq s ->
  (forall k, can (snap_name s k) = true) ->
  Forall (fun v => exists t, sn_write show v = Ok t) vecs ->
  exists s' f', sn_calls can show s vecs f = Ok (s', f') /\
    sn_counter s' = sn_counter s + length vecs /\
    (forall j v t, nth_error vecs j = Some v -> sn_write show v = Ok t ->
       (sn_counter s + j) mod sn_freq s = 0 -> f' (snap_name s (S (sn_counter s + j))) = Some t) /\
    (forall n, (forall j, j < length vecs -> (sn_counter s + j) mod sn_freq s = 0 ->
                n <> snap_name s (S (sn_counter s + j))) -> f' n = f n).
Proof.
  induction vecs as [|v vecs IH]; intros s f F C W; cbn [sn_calls].
  - exists s, f. split; auto. split; [cbn; lia|]. split; [intros [|j]; discriminate|auto].
  - inversion W as [|? ? [t Wt] W2]; subst. rewrite sn_call_ok by auto. cbv zeta.
    set (s1 := Snapshot (sn_dir s) (sn_freq s) (sn_name s) (S (sn_counter s))).
    assert (N1 : forall k, snap_name s1 k = snap_name s k) by reflexivity.
    assert (E1 : sn_file s1 = snap_name s (S (sn_counter s))) by reflexivity.
    assert (H : exists f1, (if (sn_counter s mod sn_freq s =? 0)
      then if can (sn_file s1) then let! t := sn_write show v in Ok (s1, put f (sn_file s1) t) else Throw
      else Ok (s1, f)) = Ok (s1, f1) /\
      (sn_counter s mod sn_freq s = 0 -> f1 (snap_name s (S (sn_counter s))) = Some t) /\
      (forall n, (sn_counter s mod sn_freq s = 0 -> n <> snap_name s (S (sn_counter s))) -> f1 n = f n)).
    { destruct (Nat.eqb_spec (sn_counter s mod sn_freq s) 0) as [Q|Q].
      - rewrite E1, C, Wt. cbn [rbind]. eexists; split; [reflexivity|]. split; [intros _; apply put_eq|].
        intros n X. apply put_neq; auto.
      - exists f. split; auto. split; auto. intros; contradiction. }
    destruct H as (f1 & -> & H1 & H2). cbn [rbind].
    destruct (IH s1 f1 F C W2) as (s2 & f2 & E2 & B1 & B2 & B3). cbn [s1 sn_counter sn_freq] in *.
    exists s2, f2. split; auto. split; [rewrite B1; cbn; lia|]. split.
    + intros [|j] w u; cbn [nth_error]; intros Hw Hu Hm.
      * injection Hw as <-. rewrite Nat.add_0_r in *. assert (u = t) by congruence. subst u.
        rewrite B3; [apply H1; auto|]. intros j _ _ X. rewrite N1 in X. apply snap_name_inj in X. lia.
      * replace (sn_counter s + S j) with (S (sn_counter s + j)) in * by lia.
        rewrite <- N1. eapply B2; eauto.
    + intros n X. rewrite B3, H2; auto.
      * intros Q. specialize (X 0). rewrite Nat.add_0_r in X. apply X; [cbn; lia|auto].
      * intros j J Q. rewrite N1. specialize (X (S j)).
        replace (sn_counter s + S j) with (S (sn_counter s + j)) in X by lia. apply X; [cbn; lia|auto].
Qed.

(** * eoEvalDump *)

Context {X : Type} (debug : bool) (eval : X -> res X) (print : X -> text).

Definition dump_name (d : dumper) (k : nat) : text := du_name d ++ du_sep d ++ decimal k.
Lemma dump_name_inj d j k : dump_name d j = dump_name d k -> j = k.
Proof. unfold dump_name. intros E. do 2 apply app_inv_head in E. apply decimal_inj; auto. Qed.

Lemma du_calls_many xs : forall ys d f, du_single d = false ->
  (forall k, can (dump_name d k) = true) ->
  Forall2 (fun x y => eval x = Ok y) xs ys ->
  exists d' f', du_calls can debug eval print d xs f = Ok (ys, d', f') /\
    du_count d' = du_count d + length xs /\
    (forall j y, nth_error ys j = Some y -> f' (dump_name d (du_count d + j)) = Some (print y ++ nl)) /\
    (forall n, (forall j, j < length xs -> n <> dump_name d (du_count d + j)) -> f' n = f n).
Proof.
  induction xs as [|x xs IH]; intros ys d f S C E; inversion E as [|? y ? ys' E1 E2]; subst; cbn [du_calls].
  - exists d, f. split; auto. split; [cbn; lia|]. split; [intros [|j]; discriminate|auto].
  - unfold du_call. rewrite E1. cbn [rbind]. unfold du_file; rewrite S.
    fold (dump_name d (du_count d)). rewrite C. cbn [rbind].
    set (d1 := Dumper (du_name d) false (Datatypes.S (du_count d)) (du_sep d)).
    destruct (IH ys' d1 (put f (dump_name d (du_count d)) (print y ++ nl)) eq_refl C E2) as (d2 & f2 & R & B1 & B2 & B3).
    rewrite R. cbn [rbind]. exists d2, f2. split; auto. cbn [d1 du_count] in *.
    assert (N1 : forall k, dump_name d1 k = dump_name d k) by reflexivity.
    split; [rewrite B1; cbn; lia|]. split.
    + intros [|j] z; cbn [nth_error]; intros Hz.
      * injection Hz as <-. rewrite Nat.add_0_r. rewrite B3; [apply put_eq|].
        intros j _ Q. rewrite N1 in Q. apply dump_name_inj in Q. lia.
      * replace (du_count d + Datatypes.S j) with (Datatypes.S (du_count d) + j) by lia.
        rewrite <- N1. apply B2; auto.
    + intros n Q. rewrite B3, put_neq; auto.
      * specialize (Q 0). rewrite Nat.add_0_r in Q. apply Q; cbn; lia.
      * intros j J. rewrite N1. replace (Datatypes.S (du_count d) + j) with (du_count d + Datatypes.S j) by lia.
        apply Q; cbn; lia.
Qed.

Lemma du_calls_single xs : forall ys d f, du_single d = true ->
  can (du_name d) = true ->
  Forall2 (fun x y => eval x = Ok y) xs ys ->
  exists d' f', du_calls can debug eval print d xs f = Ok (ys, d', f') /\
    du_count d' = du_count d + length xs /\
    (forall y, last (map Some ys) None = Some y -> f' (du_name d) = Some (print y ++ nl)) /\
    (forall n, n <> du_name d \/ xs = [] -> f' n = f n).
Proof.
  induction xs as [|x xs IH]; intros ys d f S C E; inversion E as [|? y ? ys' E1 E2]; subst; cbn [du_calls].
  - exists d, f. split; auto. split; [cbn; lia|]. split; [cbn; discriminate|auto].
  - unfold du_call. rewrite E1. cbn [rbind]. unfold du_file; rewrite S, C. cbn [rbind].
    set (d1 := Dumper (du_name d) true (Datatypes.S (du_count d)) (du_sep d)).
    destruct (IH ys' d1 (put f (du_name d) (print y ++ nl)) eq_refl C E2) as (d2 & f2 & R & B1 & B2 & B3).
    rewrite R. cbn [rbind]. exists d2, f2. split; auto. cbn [d1 du_count du_name] in *.
    split; [rewrite B1; cbn; lia|]. split.
    + intros z Hz. destruct ys' as [|y' ys'].
      * cbn in Hz. injection Hz as <-. rewrite B3; [apply put_eq|]. right. inversion E2; auto.
      * apply B2. exact Hz.
    + intros n [Q|Q]; [|discriminate]. rewrite B3, put_neq; auto.
Qed.
End Monitors.

(** * eoOStreamMonitor *)

Definition columns (m : omonitor) (xs : list text) : text :=
  concat (map (fun x => cell (om_width m) (om_fill m) x ++ om_delim m) xs).

Lemma columns_ok m xs : forall o, os_width o = om_width m ->
  fold_left (fun o x => put_column m [] x o) xs o = OStream (os_text o ++ columns m xs) (om_width m).
Proof.
  induction xs as [|x xs IH]; intros o W; cbn [fold_left].
  - unfold columns; cbn. rewrite app_nil_r, <- W. destruct o; auto.
  - rewrite IH by reflexivity. unfold put_column, setw, put_item. cbn [fold_left os_text os_width].
    unfold columns. cbn [map concat]. f_equal. rewrite W. unfold pad, cell.
    cbn [Nat.sub repeat]. rewrite app_nil_r, <- !app_assoc. reflexivity.
Qed.

(** * Counters *)

Section Counters.
Context {A B W : Type} (f : A -> W -> res (B * W)).

(** The calls without the counter. *)
Fixpoint plain_calls (l : list A) (s : W) : res (list B * W) :=
  match l with
  | [] => Ok ([], s)
  | a :: r => let! (b, s) := f a s in let! (bs, s) := plain_calls r s in Ok (b :: bs, s)
  end.

Lemma counted_same l : forall c s, snd (counted_calls f c l s) = plain_calls l s.
Proof.
  induction l as [|a r IH]; intros c s; cbn [counted_calls plain_calls counted]; auto.
  destruct (f a s) as [[b s1]| | |]; auto. cbn [rbind]. rewrite <- (IH (c + 1) s1).
  destruct (counted_calls f (c + 1) r s1); reflexivity.
Qed.

Lemma counted_all l : forall c s q, snd (counted_calls f c l s) = Ok q ->
  fst (counted_calls f c l s) = c + length l.
Proof.
  induction l as [|a r IH]; intros c s q; cbn [counted_calls counted]; [cbn; lia|].
  destruct (f a s) as [[b s1]| | |]; try discriminate.
  specialize (IH (c + 1) s1). destruct (counted_calls f (c + 1) r s1) as [c' q']; cbn [fst snd] in *.
  intros E. destruct q' as [x| | |]; try discriminate. rewrite (IH _ eq_refl). cbn; lia.
Qed.

(** Up to the call that fails, it included. *)
Lemma counted_until l1 : forall a l2 c s bs s1, plain_calls l1 s = Ok (bs, s1) ->
  (forall q, f a s1 <> Ok q) ->
  fst (counted_calls f c (l1 ++ a :: l2) s) = c + length l1 + 1.
Proof.
  induction l1 as [|x r IH]; intros a l2 c s bs s1; cbn [app counted_calls counted plain_calls].
  - intros E N; injection E as <- <-. cbn [length].
    destruct (f a s) as [[b s2]| | |] eqn:F; cbn [fst]; try lia. destruct (N (b, s2)); auto.
  - destruct (f x s) as [[b s2]| | |]; try discriminate. cbn [rbind].
    destruct (plain_calls r s2) as [[bs' s3]| | |] eqn:P; try discriminate. cbn [rbind].
    intros E N; injection E as <- <-. specialize (IH a l2 (c + 1) s2 _ _ P N).
    destruct (counted_calls f (c + 1) (r ++ a :: l2) s2) as [c' q']; cbn [fst] in *. rewrite IH. cbn; lia.
Qed.
End Counters.

(** * Updaters *)

Lemma increments_ok step n : forall c, increments step n c = (c + Z.of_nat n * step)%Z.
Proof. induction n as [|n IH]; intros c; cbn [increments]; [lia|]. rewrite IH. lia. Qed.

Lemma counted_updates_ok k n : forall c, 0 < k ->
  exists l, counted_updates k c n = Ok l /\ length l = n /\
  forall j, j < n -> nth j l false = ((c + S j) mod k =? 0).
Proof.
  induction n as [|n IH]; intros c K; cbn [counted_updates].
  - exists []. repeat split; auto. intros; lia.
  - destruct (IH (c + 1) K) as (l & E & L & H). destruct k as [|k]; [lia|].
    rewrite E. cbn [rbind]. eexists; split; [reflexivity|]. split; [cbn; lia|].
    intros [|j] J; cbn [nth].
    + reflexivity.
    + rewrite H by lia. replace (c + 1 + S j) with (c + S (S j)) by lia. reflexivity.
Qed.

Lemma timed_sub k last now t : In t (timed_updates k last now) -> In t now.
Proof.
  revert last; induction now as [|u r IH]; intros last; cbn [timed_updates]; auto.
  destruct (_ <=? _)%Z; [intros [<-|H]; [left; auto|right; eauto]|right; eauto].
Qed.
