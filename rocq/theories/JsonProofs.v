(** Lemmas for the text format: strings, blanks, layouts. *)
From Coq Require Import Arith Lia Ascii Bool NArith List.
Import ListNotations.
From Verif Require Import Lib JsonModel JsonSpec.

(** ** Reading in [pre ++ suf] at [length pre] *)

Lemma at_mid : forall pre c suf, at_ (pre ++ c :: suf) (length pre) = Some c.
Proof.
  intros. unfold at_. rewrite <- app_assoc, nth_error_app2, Nat.sub_diag by lia. reflexivity.
Qed.

Lemma at_end : forall pre, at_ pre (length pre) = Some zero.
Proof. intros. unfold at_. rewrite nth_error_app2, Nat.sub_diag by lia. reflexivity. Qed.

Definition unblank (suf : text) : Prop := is_blank (hd zero suf) = false.

Lemma at_hd : forall pre suf, at_ (pre ++ suf) (length pre) = Some (hd zero suf).
Proof.
  intros pre [|c suf]; [rewrite app_nil_r; apply at_end|apply at_mid].
Qed.

Lemma ignore_chars_ok : forall b pre suf fuel,
  blanks b -> unblank suf -> length b < fuel ->
  ignore_chars (pre ++ b ++ suf) fuel (length pre) = Parsed (length pre + length b).
Proof.
  induction b as [|c b IH]; intros pre suf fuel Hb Hs Hf; destruct fuel as [|f];
    cbn [length] in Hf; try lia; cbn [ignore_chars].
  - cbn [app]. rewrite at_hd, Hs. f_equal. cbn [length]. lia.
  - inversion Hb as [|? ? Hc Hb']; subst.
    cbn [app]. rewrite at_mid, Hc.
    replace (pre ++ c :: b ++ suf) with ((pre ++ [c]) ++ b ++ suf)
      by (rewrite <- app_assoc; reflexivity).
    replace (S (length pre)) with (length (pre ++ [c])) by (rewrite app_length; cbn; lia).
    rewrite IH; auto; [|lia]. f_equal. rewrite app_length. cbn [length]. lia.
Qed.

Lemma ignore_ok : forall b pre suf,
  blanks b -> unblank suf ->
  ignore (pre ++ b ++ suf) (length pre) = Parsed (length pre + length b).
Proof.
  intros. apply ignore_chars_ok; auto. rewrite !app_length. lia.
Qed.

(** ** Strings *)

Fixpoint lead (s : text) : nat :=
  match s with
  | [] => 0
  | c :: s' => if Ascii.eqb c back_ch then S (lead s') else 0
  end.
Definition trailing (s : text) : nat := lead (rev s).

Lemma lead_snoc : forall s c,
  lead (s ++ [c]) = if Nat.eqb (lead s) (length s) then
                      (if Ascii.eqb c back_ch then S (length s) else length s)
                    else lead s.
Proof.
  induction s as [|d s IH]; intros c; cbn [app lead length].
  - destruct (Ascii.eqb c back_ch); reflexivity.
  - destruct (Ascii.eqb d back_ch) eqn:Ed.
    + rewrite IH. cbn [Nat.eqb]. destruct (Nat.eqb (lead s) (length s)), (Ascii.eqb c back_ch);
        reflexivity.
    + reflexivity.
Qed.

Lemma trailing_cons : forall c s,
  trailing (c :: s) = if Nat.eqb (trailing s) (length s) then
                      (if Ascii.eqb c back_ch then S (length s) else length s)
                    else trailing s.
Proof.
  intros. unfold trailing. cbn [rev]. rewrite lead_snoc, rev_length. reflexivity.
Qed.

Lemma trailing_snoc : forall c s,
  trailing (s ++ [c]) = if Ascii.eqb c back_ch then S (trailing s) else 0.
Proof. intros. unfold trailing. rewrite rev_app_distr. reflexivity. Qed.

Definition no_quote (u : text) : Prop := Forall (fun c => Ascii.eqb c quote_ch = false) u.

(** Prefixes without quote only matter by the parity of their last backslashes. *)
Lemma well_escaped_app : forall n u w,
  length u <= n -> no_quote u ->
  well_escaped (u ++ w) =
    if Nat.odd (trailing u) then
      match w with [] => false | _ :: w' => well_escaped w' end
    else well_escaped w.
Proof.
  induction n as [|n IH]; intros u w Hl Hq.
  - destruct u; [reflexivity|cbn in Hl; lia].
  - destruct u as [|c u]; [reflexivity|].
    inversion Hq as [|? ? Hc Hq']; subst. cbn [length] in Hl.
    cbn [app well_escaped]. rewrite trailing_cons.
    destruct (Ascii.eqb c back_ch) eqn:Ec.
    + destruct u as [|d u].
      * cbn. destruct w; reflexivity.
      * cbn [app]. inversion Hq' as [|? ? Hd Hq'']; subst. cbn [length] in Hl.
        rewrite (IH u w) by (auto; lia). rewrite trailing_cons.
        replace (length (d :: u)) with (S (length u)) by reflexivity.
        destruct (Nat.eqb (trailing u) (length u)) eqn:Et.
        -- apply Nat.eqb_eq in Et. rewrite Et.
           destruct (Ascii.eqb d back_ch).
           ++ rewrite Nat.eqb_refl. rewrite !Nat.odd_succ, Nat.even_succ. reflexivity.
           ++ replace (Nat.eqb (length u) (S (length u))) with false
                by (symmetry; apply Nat.eqb_neq; lia). reflexivity.
        -- replace (Nat.eqb (trailing u) (S (length u))) with false; [reflexivity|].
           symmetry. apply Nat.eqb_neq.
           assert (lead (rev u) <= length (rev u)).
           { clear. generalize (rev u). induction l as [|x l IHl]; cbn; [lia|].
             destruct (Ascii.eqb x back_ch); lia. }
           rewrite rev_length in H. unfold trailing. lia.
    + rewrite Hc. cbn [negb andb]. rewrite (IH u w) by (auto; lia).
      destruct (Nat.eqb (trailing u) (length u)) eqn:Et; [|reflexivity].
      apply Nat.eqb_eq in Et. rewrite Et. reflexivity.
Qed.

Lemma find_in_ok : forall u base v,
  no_quote u -> find_in (u ++ quote_ch :: v) base = Some (base + length u).
Proof.
  induction u as [|c u IH]; intros base v H; cbn [app find_in length].
  - rewrite Ascii.eqb_refl. f_equal. lia.
  - inversion H as [|? ? Hc Hu]; subst. rewrite Hc, IH by auto. f_equal. lia.
Qed.

Lemma find_in_none : forall u base, no_quote u -> find_in u base = None.
Proof.
  induction u as [|c u IH]; intros base H; [reflexivity|].
  inversion H as [|? ? Hc Hu]; subst. cbn. rewrite Hc. auto.
Qed.

Lemma skipn_app_len : forall {A} (l r : list A), skipn (length l) (l ++ r) = r.
Proof. intros. rewrite skipn_app, skipn_all, Nat.sub_diag. reflexivity. Qed.

Lemma skipn_app_S : forall {A} (l r : list A) x, skipn (S (length l)) (l ++ x :: r) = r.
Proof.
  intros. replace (l ++ x :: r) with ((l ++ [x]) ++ r) by (rewrite <- app_assoc; reflexivity).
  replace (S (length l)) with (length (l ++ [x])) by (rewrite app_length; cbn; lia).
  apply skipn_app_len.
Qed.

Lemma find_quote_next : forall pre u v,
  no_quote u ->
  find_quote (pre ++ quote_ch :: u ++ quote_ch :: v) (S (length pre))
    = Some (S (length pre) + length u).
Proof. intros. unfold find_quote. rewrite skipn_app_S. apply find_in_ok. assumption. Qed.

Lemma count_back_ok : forall u pre v,
  count_back (pre ++ quote_ch :: u ++ v) (length pre + length u) = Some (trailing u).
Proof.
  induction u as [|c u IH] using rev_ind; intros pre v.
  - cbn [length app]. rewrite Nat.add_0_r.
    pose proof (at_mid pre quote_ch v) as A. revert A.
    destruct (length pre) eqn:E; intros A; cbn [count_back]; rewrite A; reflexivity.
  - rewrite app_length. cbn [length]. rewrite trailing_snoc.
    replace (length pre + (length u + 1)) with (S (length pre + length u)) by lia.
    cbn [count_back].
    replace (pre ++ quote_ch :: (u ++ [c]) ++ v) with ((pre ++ quote_ch :: u) ++ c :: v)
      by (rewrite <- !app_assoc; reflexivity).
    replace (S (length pre + length u)) with (length (pre ++ quote_ch :: u))
      by (rewrite app_length; cbn; lia).
    rewrite at_mid. destruct (Ascii.eqb c back_ch); [|reflexivity].
    replace ((pre ++ quote_ch :: u) ++ c :: v) with (pre ++ quote_ch :: u ++ c :: v)
      by (rewrite <- !app_assoc; reflexivity).
    rewrite IH. reflexivity.
Qed.

Lemma split_quote : forall s,
  no_quote s \/ exists u v, s = u ++ quote_ch :: v /\ no_quote u.
Proof.
  induction s as [|c s IH]; [left; constructor|].
  destruct (Ascii.eqb c quote_ch) eqn:E.
  - apply Ascii.eqb_eq in E. subst. right. exists [], s. split; [reflexivity|constructor].
  - destruct IH as [H|(u & v & E1 & H)].
    + left. constructor; auto.
    + right. exists (c :: u), v. subst. split; [reflexivity|constructor; auto].
Qed.

(** One turn of the loop from an opening (or escaped) quote. *)
Lemma closing_turn : forall pre u v f,
  no_quote u ->
  closing (pre ++ quote_ch :: u ++ quote_ch :: v) (S f) (length pre) =
    if Nat.odd (trailing u)
    then closing (pre ++ quote_ch :: u ++ quote_ch :: v) f (length (pre ++ quote_ch :: u))
    else Parsed (S (length pre) + length u).
Proof.
  intros. cbn [closing]. rewrite find_quote_next by auto.
  replace (S (length pre) + length u - 1) with (length pre + length u) by lia.
  rewrite count_back_ok. rewrite app_length. cbn [length].
  replace (length pre + S (length u)) with (S (length pre) + length u) by lia. reflexivity.
Qed.

Lemma closing_ok : forall n s pre suf fuel,
  length s <= n -> well_escaped s = true -> length s < fuel ->
  closing (pre ++ quote_ch :: s ++ quote_ch :: suf) fuel (length pre)
    = Parsed (S (length pre) + length s).
Proof.
  induction n as [|n IH]; intros s pre suf fuel Hn Hw Hf;
    (destruct fuel as [|f]; [lia|]).
  - destruct s; [|cbn in Hn; lia]. rewrite closing_turn by constructor. reflexivity.
  - destruct (split_quote s) as [Hq|(u & v & E & Hq)].
    + rewrite closing_turn by auto.
      rewrite <- (app_nil_r s), (well_escaped_app (length s)) in Hw by auto.
      destruct (Nat.odd (trailing s)); [discriminate|reflexivity].
    + subst s. rewrite (well_escaped_app (length u)) in Hw by auto.
      rewrite app_length in Hn, Hf. cbn [length] in Hn, Hf.
      rewrite <- app_assoc. cbn [app]. rewrite closing_turn by auto.
      destruct (Nat.odd (trailing u)).
      * replace (pre ++ quote_ch :: u ++ quote_ch :: v ++ quote_ch :: suf)
          with ((pre ++ quote_ch :: u) ++ quote_ch :: v ++ quote_ch :: suf)
          by (rewrite <- !app_assoc; reflexivity).
        rewrite IH by (auto; lia). f_equal. rewrite !app_length. cbn [length]. lia.
      * cbn in Hw. discriminate.
Qed.

Lemma closing_wrong : forall n s pre fuel,
  length s <= n -> well_escaped s = false ->
  closing (pre ++ quote_ch :: s ++ [quote_ch]) fuel (length pre)
    <> Parsed (S (length pre) + length s).
Proof.
  induction n as [|n IH]; intros s pre fuel Hn Hw;
    (destruct fuel as [|f]; [discriminate|]).
  - destruct s; [discriminate|cbn in Hn; lia].
  - destruct (split_quote s) as [Hq|(u & v & E & Hq)].
    + rewrite closing_turn by auto.
      rewrite <- (app_nil_r s), (well_escaped_app (length s)) in Hw by auto.
      destruct (Nat.odd (trailing s)); [|discriminate].
      destruct f as [|f]; [discriminate|]. cbn [closing]. unfold find_quote.
      replace (pre ++ quote_ch :: s ++ [quote_ch])
        with ((pre ++ quote_ch :: s) ++ quote_ch :: []) by (rewrite <- !app_assoc; reflexivity).
      rewrite skipn_app_S. discriminate.
    + subst s. rewrite (well_escaped_app (length u)) in Hw by auto.
      rewrite app_length in *. cbn [length] in *.
      rewrite <- app_assoc. cbn [app]. rewrite closing_turn by auto.
      destruct (Nat.odd (trailing u)).
      * replace (pre ++ quote_ch :: u ++ quote_ch :: v ++ [quote_ch])
          with ((pre ++ quote_ch :: u) ++ quote_ch :: v ++ [quote_ch])
          by (rewrite <- !app_assoc; reflexivity).
        replace (S (length pre) + (length u + S (length v)))
          with (S (length (pre ++ quote_ch :: u)) + length v)
          by (rewrite app_length; cbn [length]; lia).
        apply IH; [lia|assumption].
      * intros E. injection E as E. lia.
Qed.

Lemma find_quote_here : forall pre rest,
  find_quote (pre ++ quote_ch :: rest) (length pre) = Some (length pre).
Proof. intros. unfold find_quote. rewrite skipn_app_len. reflexivity. Qed.

Lemma parse_string_ok : forall s pre suf,
  well_escaped s = true ->
  parse_string (pre ++ print_string s ++ suf) (length pre)
    = Parsed (s, length pre + length (print_string s)).
Proof.
  intros. unfold parse_string, print_string.
  replace (pre ++ (quote_ch :: s ++ [quote_ch]) ++ suf)
    with (pre ++ quote_ch :: s ++ quote_ch :: suf)
    by (cbn [app]; rewrite <- !app_assoc; reflexivity).
  rewrite (closing_ok (length s)); auto;
    [|rewrite app_length; cbn [length]; rewrite app_length; lia].
  cbn [obnd]. rewrite find_quote_here, skipn_app_S.
  replace (S (length pre) + length s =? length pre) with false
    by (symmetry; apply Nat.eqb_neq; lia).
  replace (S (length pre) + length s - length pre - 1) with (length s) by lia.
  rewrite firstn_app, Nat.sub_diag, firstn_all. cbn [firstn]. rewrite app_nil_r.
  f_equal. f_equal. cbn [length]. rewrite app_length. cbn [length]. lia.
Qed.

Lemma parse_string_wrong : forall s,
  well_escaped s = false -> forall e, parse_string (print_string s) 0 <> Parsed (s, e).
Proof.
  intros s Hw e E. unfold parse_string, print_string in E.
  pose proof (closing_wrong (length s) s [] (S (length (print_string s))) (le_n _) Hw) as N.
  cbn [app length] in N. unfold print_string in N.
  destruct (closing _ _ _) as [p| |]; try discriminate. cbn [obnd] in E.
  unfold find_quote in E. cbn [skipn find_in] in E. rewrite Ascii.eqb_refl in E.
  injection E as E _.
  destruct p as [|p]; cbn [Nat.eqb] in E.
  { cbn [skipn] in E. apply (f_equal (@length _)) in E. rewrite app_length in E. cbn in E. lia. }
  cbn [skipn] in E. rename p into p0. remember (S p0) as p eqn:Ep.
  assert (length (firstn (p - 0 - 1) (s ++ [quote_ch])) = length s) as L by (f_equal; exact E).
  rewrite firstn_length, app_length in L. cbn [length] in L.
  assert (length s <> 0) by (destruct s; [discriminate|cbn; lia]).
  apply N. f_equal. cbn. lia.
Qed.

(** ** Layouts *)

Definition opens (c : ascii) : Prop := c = "{"%char \/ c = quote_ch \/ c = "["%char.

Lemma laid_opens : forall v t, laid v t -> exists c t0, t = c :: t0 /\ opens c.
Proof.
  intros v t H. unfold opens. inversion H; subst; do 2 eexists; split; try reflexivity; auto.
Qed.

Lemma laid_not_null : forall v t, laid v t -> v <> JNull.
Proof. intros v t H. inversion H; discriminate. Qed.

Lemma opens_unblank : forall c t, opens c -> unblank (c :: t).
Proof. intros c t [->|[->| ->]]; reflexivity. Qed.

Lemma items_unblank : forall vs t suf,
  laid_items vs t -> unblank (t ++ "]"%char :: suf).
Proof.
  intros vs t suf H. inversion H; subst; [reflexivity|].
  destruct (laid_opens _ _ H0) as (c & t9 & -> & O). cbn [app]. apply opens_unblank. exact O.
Qed.

Lemma members_unblank : forall kvs t suf,
  laid_members kvs t -> unblank (t ++ "}"%char :: suf).
Proof. intros vs t suf H. inversion H; subst; reflexivity. Qed.

Definition P_val (v : json) (t : text) : Prop :=
  forall fuel pre b0 b1 suf,
  2 * length t <= fuel -> blanks b0 -> blanks b1 -> unblank suf ->
  parse_right (pre ++ b0 ++ t ++ b1 ++ suf) fuel (length pre)
    = Parsed (v, length pre + length b0 + length t + length b1).

Definition P_items (vs : list json) (t : text) : Prop :=
  forall fuel pre acc suf,
  2 * length t + 1 <= fuel ->
  items (pre ++ t ++ "]"%char :: suf) fuel acc (length pre)
    = Parsed (acc ++ vs, length pre + length t).

Definition put_all (acc kvs : list (text * json)) : list (text * json) :=
  fold_left (fun m e => map_put (fst e) (snd e) m) kvs acc.

Definition P_members (kvs : list (text * json)) (t : text) : Prop :=
  forall fuel pre acc suf,
  2 * length t + 1 <= fuel ->
  members (pre ++ t ++ "}"%char :: suf) fuel acc (length pre)
    = Parsed (put_all acc kvs, length pre + length t).

Lemma items_S : forall str f acc pos,
  items str (S f) acc pos =
      if pos <? length str then
        match at_ str pos with
        | None => Undefined
        | Some c =>
            if Ascii.eqb c "]"%char then Parsed (acc, pos)
            else
              obnd (parse_right str f pos) (fun r =>
              obnd (ignore str (snd r)) (fun pos =>
              items str f (match fst r with JNull => acc | child => acc ++ [child] end) pos))
        end
      else Parsed (acc, pos).
Proof. reflexivity. Qed.

Lemma members_S : forall str f acc pos,
  members str (S f) acc pos =
      if pos <? length str then
        match at_ str pos with
        | None => Undefined
        | Some c =>
            if Ascii.eqb c "}"%char then Parsed (acc, pos)
            else
              obnd (parse_string str pos) (fun k =>
              obnd (parse_right str f (S (snd k))) (fun r =>
              obnd (ignore str (snd r)) (fun pos =>
              members str f (map_put (fst k) (fst r) acc) pos)))
        end
      else Parsed (acc, pos).
Proof. reflexivity. Qed.

(** Shape of one call of [parse_right] on a non-blank opening character. *)
Lemma parse_right_turn : forall f pre b0 t suf,
  blanks b0 -> unblank (t ++ suf) ->
  parse_right (pre ++ b0 ++ t ++ suf) (S f) (length pre) =
  let str := (pre ++ b0) ++ t ++ suf in
  let pos := length (pre ++ b0) in
  obnd
    (let c := hd zero (t ++ suf) in
        if Ascii.eqb c "{"%char then
              obnd (ignore str (pos + 1)) (fun pos =>
              obnd (members str f [] pos) (fun r =>
              Parsed (JObj (fst r), snd r + 1)))
            else if Ascii.eqb c quote_ch then
              obnd (parse_string str pos) (fun r => Parsed (JStr (fst r), snd r))
            else if Ascii.eqb c "["%char then
              obnd (ignore str (pos + 1)) (fun pos =>
              obnd (items str f [] pos) (fun r =>
              Parsed (JArr (fst r), snd r + 1)))
            else Parsed (JNull, pos))
    (fun r => obnd (ignore str (snd r)) (fun pos => Parsed (fst r, pos))).
Proof.
  intros f pre b0 t suf Hb Hu. cbn zeta. cbn [parse_right].
  rewrite ignore_ok by auto. cbn [obnd]. rewrite <- app_length.
  rewrite (app_assoc pre b0). rewrite at_hd. reflexivity.
Qed.

Lemma ignore_at : forall str pos b pre suf,
  str = pre ++ b ++ suf -> pos = length pre -> blanks b -> unblank suf ->
  ignore str pos = Parsed (length pre + length b).
Proof. intros; subst. apply ignore_ok; auto. Qed.

Lemma laid_parses :
  (forall v t, laid v t -> P_val v t) /\
  (forall vs t, laid_items vs t -> P_items vs t) /\
  (forall kvs t, laid_members kvs t -> P_members kvs t).
Proof.
  apply laid_all_ind.
  - (* string *)
    intros s Hw fuel pre b0 b1 suf Hf Hb0 Hb1 Hs.
    destruct fuel as [|f]; [cbn [length] in Hf; lia|].
    rewrite parse_right_turn by (auto; reflexivity).
    cbn zeta. cbn [hd app]. cbn [Ascii.eqb quote_ch]. cbn [Bool.eqb].
    change (quote_ch :: (s ++ [quote_ch]) ++ b1 ++ suf) with (print_string s ++ b1 ++ suf).
    rewrite parse_string_ok by auto. cbn [obnd fst snd].
    rewrite (ignore_at _ _ b1 ((pre ++ b0) ++ print_string s) suf); auto.
    + cbn [obnd]. f_equal. f_equal. unfold print_string. rewrite !app_length. lia.
    + rewrite <- !app_assoc. reflexivity.
    + rewrite !app_length. reflexivity.
  - (* array *)
    intros vs b t Hb Hi IH fuel pre b0 b1 suf Hf Hb0 Hb1 Hs.
    destruct fuel as [|f]; [cbn [length] in Hf; lia|].
    cbn [length] in Hf. rewrite !app_length in Hf. cbn [length] in Hf.
    rewrite parse_right_turn by (auto; reflexivity).
    cbn zeta. cbn [hd app]. cbn [Ascii.eqb quote_ch]. cbn [Bool.eqb].
    rewrite (ignore_at _ _ b ((pre ++ b0) ++ ["["%char]) (t ++ "]"%char :: b1 ++ suf)); auto.
    2:{ cbn [app]. rewrite <- !app_assoc. cbn [app]. reflexivity. }
    2:{ rewrite !app_length. cbn [length]. lia. }
    2:{ eapply items_unblank; eauto. }
    cbn [obnd]. rewrite <- app_length.
    replace ((pre ++ b0) ++ "["%char :: (b ++ t ++ ["]"%char]) ++ b1 ++ suf)
      with ((((pre ++ b0) ++ ["["%char]) ++ b) ++ t ++ "]"%char :: b1 ++ suf)
      by (rewrite <- !app_assoc; reflexivity).
    rewrite IH by lia. cbn [obnd fst snd app].
    rewrite (ignore_at _ _ b1 ((((pre ++ b0) ++ ["["%char]) ++ b) ++ t ++ ["]"%char]) suf); auto.
    + cbn [obnd]. f_equal. f_equal. rewrite !app_length. cbn [length]. rewrite !app_length.
      cbn [length]. lia.
    + rewrite <- !app_assoc. reflexivity.
    + rewrite !app_length. cbn [length]. lia.
  - (* object *)
    intros kvs b t Hb Hi IH fuel pre b0 b1 suf Hf Hb0 Hb1 Hs.
    destruct fuel as [|f]; [cbn [length] in Hf; lia|].
    cbn [length] in Hf. rewrite !app_length in Hf. cbn [length] in Hf.
    rewrite parse_right_turn by (auto; reflexivity).
    cbn zeta. cbn [hd app]. cbn [Ascii.eqb quote_ch]. cbn [Bool.eqb].
    rewrite (ignore_at _ _ b ((pre ++ b0) ++ ["{"%char]) (t ++ "}"%char :: b1 ++ suf)); auto.
    2:{ cbn [app]. rewrite <- !app_assoc. cbn [app]. reflexivity. }
    2:{ rewrite !app_length. cbn [length]. lia. }
    2:{ eapply members_unblank; eauto. }
    cbn [obnd]. rewrite <- app_length.
    replace ((pre ++ b0) ++ "{"%char :: (b ++ t ++ ["}"%char]) ++ b1 ++ suf)
      with ((((pre ++ b0) ++ ["{"%char]) ++ b) ++ t ++ "}"%char :: b1 ++ suf)
      by (rewrite <- !app_assoc; reflexivity).
    rewrite IH by lia. cbn [obnd fst snd app].
    rewrite (ignore_at _ _ b1 ((((pre ++ b0) ++ ["{"%char]) ++ b) ++ t ++ ["}"%char]) suf); auto.
    + cbn [obnd]. f_equal. f_equal. rewrite !app_length. cbn [length]. rewrite !app_length.
      cbn [length]. lia.
    + rewrite <- !app_assoc. reflexivity.
    + rewrite !app_length. cbn [length]. lia.
  - (* no more item *)
    intros fuel pre acc suf Hf. destruct fuel as [|f]; [lia|].
    rewrite items_S. cbn [app length]. rewrite at_mid.
    replace (length pre <? length (pre ++ "]"%char :: suf)) with true.
    + cbn. f_equal. f_equal; [rewrite app_nil_r; reflexivity|lia].
    + symmetry. apply Nat.ltb_lt. rewrite app_length. cbn [length]. lia.
  - (* an item *)
    intros v t b vs t' Hv IHv Hb Hvs IHvs fuel pre acc suf Hf.
    destruct fuel as [|f]; [lia|]. rewrite !app_length in Hf.
    destruct (laid_opens _ _ Hv) as (c & t0 & Et & Oc).
    assert (1 <= length t) by (subst t; cbn [length]; lia).
    rewrite items_S.
    replace (length pre <? length (pre ++ (t ++ b ++ t') ++ "]"%char :: suf)) with true.
    2:{ symmetry. apply Nat.ltb_lt. rewrite !app_length. cbn [length]. lia. }
    rewrite at_hd.
    replace (Ascii.eqb (hd zero ((t ++ b ++ t') ++ "]"%char :: suf)) "]"%char) with false.
    2:{ subst t. cbn [app hd]. destruct Oc as [->|[->| ->]]; reflexivity. }
    replace (pre ++ (t ++ b ++ t') ++ "]"%char :: suf)
      with (pre ++ [] ++ t ++ b ++ (t' ++ "]"%char :: suf))
      by (rewrite <- !app_assoc; reflexivity).
    rewrite (IHv f pre [] b (t' ++ "]"%char :: suf)); auto; [|lia|constructor|].
    2:{ eapply items_unblank; eauto. }
    cbn [obnd fst snd].
    rewrite (ignore_at _ _ [] (pre ++ t ++ b) (t' ++ "]"%char :: suf)).
    + cbn [obnd length]. rewrite Nat.add_0_r.
      replace (pre ++ [] ++ t ++ b ++ t' ++ "]"%char :: suf)
        with ((pre ++ t ++ b) ++ t' ++ "]"%char :: suf) by (rewrite <- !app_assoc; reflexivity).
      rewrite IHvs by lia. f_equal. f_equal.
      * destruct v; try (rewrite <- app_assoc; reflexivity).
        apply laid_not_null in Hv. congruence.
      * rewrite !app_length. lia.
    + rewrite <- !app_assoc. reflexivity.
    + rewrite !app_length. cbn [length]. lia.
    + constructor.
    + eapply items_unblank; eauto.
  - (* no more member *)
    intros fuel pre acc suf Hf. destruct fuel as [|f]; [lia|].
    rewrite members_S. cbn [app length]. rewrite at_mid.
    replace (length pre <? length (pre ++ "}"%char :: suf)) with true.
    + cbn. f_equal. f_equal. lia.
    + symmetry. apply Nat.ltb_lt. rewrite app_length. cbn [length]. lia.
  - (* a member *)
    intros k colon b0 v t b kvs t' Hk Hb0 Hv IHv Hb Hm IHm fuel pre acc suf Hf.
    destruct fuel as [|f]; [lia|].
    fold (print_string k) in Hf |- *.
    destruct (laid_opens _ _ Hv) as (c & t0 & Et & Oc).
    assert (1 <= length t) by (subst t; cbn [length]; lia).
    assert (2 <= length (print_string k))
      by (unfold print_string; cbn [length]; rewrite app_length; cbn; lia).
    rewrite !app_length in Hf. cbn [length] in Hf. rewrite !app_length in Hf.
    rewrite members_S.
    match goal with |- context [length pre <? ?n] => replace (length pre <? n) with true end.
    2:{ symmetry. apply Nat.ltb_lt. rewrite !app_length. cbn [length]. lia. }
    rewrite at_hd.
    match goal with |- context [Ascii.eqb (hd zero ?l) "}"%char] =>
      change (Ascii.eqb (hd zero l) "}"%char) with false end.
    cbv iota.
    replace (pre ++ (print_string k ++ colon :: b0 ++ t ++ b ++ t') ++ "}"%char :: suf)
      with (pre ++ print_string k ++ colon :: b0 ++ t ++ b ++ t' ++ "}"%char :: suf)
      by (rewrite <- !app_assoc; cbn [app]; rewrite <- !app_assoc; reflexivity).
    rewrite parse_string_ok by auto. cbn [obnd fst snd].
    replace (pre ++ print_string k ++ colon :: b0 ++ t ++ b ++ t' ++ "}"%char :: suf)
      with ((pre ++ print_string k ++ [colon]) ++ b0 ++ t ++ b ++ t' ++ "}"%char :: suf)
      by (rewrite <- !app_assoc; reflexivity).
    replace (S (length pre + length (print_string k)))
      with (length (pre ++ print_string k ++ [colon]))
      by (rewrite !app_length; cbn [length]; lia).
    rewrite (IHv f (pre ++ print_string k ++ [colon]) b0 b (t' ++ "}"%char :: suf)); auto; [|lia|].
    2:{ eapply members_unblank; eauto. }
    cbn [obnd fst snd].
    rewrite (ignore_at _ _ [] ((pre ++ print_string k ++ [colon]) ++ b0 ++ t ++ b)
               (t' ++ "}"%char :: suf)).
    + cbn [obnd length]. rewrite Nat.add_0_r.
      replace ((pre ++ print_string k ++ [colon]) ++ b0 ++ t ++ b ++ t' ++ "}"%char :: suf)
        with (((pre ++ print_string k ++ [colon]) ++ b0 ++ t ++ b) ++ t' ++ "}"%char :: suf)
        by (rewrite <- !app_assoc; reflexivity).
      rewrite IHm by lia. f_equal. f_equal.
      rewrite !app_length. cbn [length]. rewrite !app_length. lia.
    + rewrite <- !app_assoc. reflexivity.
    + rewrite !app_length. cbn [length]. lia.
    + constructor.
    + eapply members_unblank; eauto.
Qed.

(** ** Maps *)

Lemma text_ltb_irrefl : forall a, text_ltb a a = false.
Proof. induction a as [|x a IH]; [reflexivity|]. cbn. rewrite N.ltb_irrefl. exact IH. Qed.

Lemma text_ltb_trans : forall a b c,
  text_ltb a b = true -> text_ltb b c = true -> text_ltb a c = true.
Proof.
  induction a as [|x a IH]; intros [|y b] [|z c]; cbn; try discriminate; auto.
  destruct (N.ltb_spec (N_of_ascii x) (N_of_ascii y)),
    (N.ltb_spec (N_of_ascii y) (N_of_ascii x)),
    (N.ltb_spec (N_of_ascii y) (N_of_ascii z)),
    (N.ltb_spec (N_of_ascii z) (N_of_ascii y)),
    (N.ltb_spec (N_of_ascii x) (N_of_ascii z)),
    (N.ltb_spec (N_of_ascii z) (N_of_ascii x)); try discriminate; try lia; auto.
  apply IH.
Qed.

Lemma text_ltb_asym : forall a b, text_ltb a b = true -> text_ltb b a = false.
Proof.
  intros a b H. destruct (text_ltb b a) eqn:E; [|reflexivity].
  pose proof (text_ltb_trans _ _ _ H E) as T. rewrite text_ltb_irrefl in T. discriminate.
Qed.

Lemma text_ltb_total : forall a b, text_ltb a b = false -> text_ltb b a = false -> a = b.
Proof.
  induction a as [|x a IH]; intros [|y b]; cbn; try discriminate; auto.
  destruct (N.ltb_spec (N_of_ascii x) (N_of_ascii y)),
    (N.ltb_spec (N_of_ascii y) (N_of_ascii x)); try discriminate; try lia.
  intros. assert (N_of_ascii x = N_of_ascii y) as E by lia.
  apply (f_equal ascii_of_N) in E. rewrite !ascii_N_embedding in E. subst.
  f_equal. apply IH; auto.
Qed.

Definition below (k : text) (m : list (text * json)) : Prop :=
  Forall (fun e => text_ltb (fst e) k = true) m.

Lemma map_put_last : forall k v m, below k m -> map_put k v m = m ++ [(k, v)].
Proof.
  induction m as [|[k' v'] m IH]; intros H; [reflexivity|].
  inversion H as [|? ? H1 H2]; subst. cbn [fst] in H1. cbn [map_put app].
  rewrite (text_ltb_asym _ _ H1), H1, IH by auto. reflexivity.
Qed.

Lemma put_all_sorted : forall kvs acc,
  sorted_keys kvs -> (match kvs with [] => True | (k, _) :: _ => below k acc end) ->
  put_all acc kvs = acc ++ kvs.
Proof.
  induction kvs as [|[k v] kvs IH]; intros acc Hs Hb; cbn [put_all fold_left].
  - rewrite app_nil_r. reflexivity.
  - cbn [fst snd]. rewrite map_put_last by auto.
    change (put_all (acc ++ [(k, v)]) kvs = acc ++ (k, v) :: kvs).
    rewrite IH.
    + rewrite <- app_assoc. reflexivity.
    + destruct kvs as [|[k' v'] kvs]; [exact I|apply Hs].
    + destruct kvs as [|[k' v'] kvs]; [exact I|]. destruct Hs as [Hk Hs].
      apply Forall_app. split; [|constructor; [exact Hk|constructor]].
      eapply Forall_impl; [|exact Hb]. cbn. intros e He. eapply text_ltb_trans; eauto.
Qed.

Lemma map_of_sorted : forall kvs, sorted_keys kvs -> map_of kvs = kvs.
Proof.
  intros kvs H. change (put_all [] kvs = [] ++ kvs). apply put_all_sorted; auto.
  destruct kvs as [|[k v] kvs]; [exact I|constructor].
Qed.

(** ** Printed texts are layouts *)

Lemma json_ind' : forall P : json -> Prop,
  (forall s, P (JStr s)) ->
  (forall vs, Forall P vs -> P (JArr vs)) ->
  (forall kvs, Forall (fun e => P (snd e)) kvs -> P (JObj kvs)) ->
  P JNull ->
  forall v, P v.
Proof.
  intros P Hs Ha Ho Hn. fix F 1. intros [s|vs|kvs|].
  - apply Hs.
  - apply Ha. induction vs as [|v vs IH]; constructor; [apply F|exact IH].
  - apply Ho. induction kvs as [|[k v] kvs IH]; constructor; [apply F|exact IH].
  - apply Hn.
Qed.

Definition Printed (v : json) : Prop :=
  printable v -> exists t tail, print v = t ++ tail /\ laid v t /\ blanks tail.

Lemma join_items : forall vs, Forall Printed vs ->
  fold_right (fun w P => printable w /\ P) True vs ->
  laid_items vs (join (map print vs)).
Proof.
  induction 1 as [|v vs H F IH]; intros Hp; [constructor|].
  cbn [fold_right] in Hp. destruct Hp as [Hv Hvs].
  destruct (H Hv) as (t & tail & E & L & B). specialize (IH Hvs).
  cbn [map join]. destruct vs as [|w vs].
  - cbn [map]. rewrite E. rewrite <- (app_nil_r tail).
    apply laid_cons; auto.
  - cbn [map] in IH |- *. rewrite E. rewrite <- app_assoc.
    rewrite (app_assoc tail). apply laid_cons; auto.
    apply Forall_app. split; [exact B|]. repeat constructor.
Qed.

Lemma join_members : forall kvs, Forall (fun e => Printed (snd e)) kvs ->
  fold_right (fun e P => well_escaped (fst e) = true /\ printable (snd e) /\ P) True kvs ->
  laid_members kvs
    (join (map (fun e => print_string (fst e) ++ [":"%char] ++ print (snd e)) kvs)).
Proof.
  induction 1 as [|[k v] kvs H F IH]; intros Hp; [constructor|].
  cbn [fold_right fst snd] in Hp, H. destruct Hp as (Hk & Hv & Hvs).
  destruct (H Hv) as (t & tail & E & L & B). specialize (IH Hvs).
  cbn [map join]. cbn [fst snd]. destruct kvs as [|w kvs].
  - cbn [map]. rewrite E. rewrite <- (app_nil_r tail).
    apply (laid_mcons k ":"%char [] v t tail [] []); auto. constructor.
  - cbn [map] in IH |- *. rewrite E. rewrite <- app_assoc. cbn [app].
    rewrite <- app_assoc.
    match goal with |- context [tail ++ ?a :: ?b :: ?j] =>
      replace (tail ++ a :: b :: j) with ((tail ++ [a; b]) ++ j)
        by (rewrite <- app_assoc; reflexivity) end.
    apply (laid_mcons k ":"%char [] v t _ _ _); auto; [constructor|].
    apply Forall_app. split; [exact B|]. repeat constructor.
Qed.

Lemma print_laid : forall v, Printed v.
Proof.
  apply json_ind'.
  - intros s Hp. exists (print_string s), []. rewrite app_nil_r. repeat split.
    + constructor. exact Hp.
    + constructor.
  - intros vs F Hp. exists ("["%char :: [] ++ join (map print vs) ++ ["]"%char]), [newline_ch].
    split; [|split].
    + cbn [print app]. rewrite <- app_assoc. reflexivity.
    + constructor; [constructor|]. apply join_items; auto.
    + repeat constructor.
  - intros kvs F [Hs Hp].
    exists ("{"%char :: [] ++
      join (map (fun e => print_string (fst e) ++ [":"%char] ++ print (snd e)) kvs)
      ++ ["}"%char]), [newline_ch].
    split; [|split].
    + cbn [print app]. rewrite <- app_assoc. reflexivity.
    + rewrite <- (map_of_sorted kvs Hs) at 1. constructor; [constructor|].
      apply join_members; auto.
    + repeat constructor.
  - intros [].
Qed.

Lemma parse_laid : forall v t b0 b1 fuel,
  laid v t -> blanks b0 -> blanks b1 -> 2 * length t <= fuel ->
  parse fuel (b0 ++ t ++ b1) = Parsed v.
Proof.
  intros v t b0 b1 fuel L H0 H1 Hf. unfold parse.
  pose proof (proj1 laid_parses v t L fuel [] b0 b1 [] Hf H0 H1 eq_refl) as E.
  cbn [app length] in E. rewrite app_nil_r in E. rewrite E. reflexivity.
Qed.

Lemma parse_print : forall v fuel,
  printable v -> 2 * length (print v) <= fuel -> parse fuel (print v) = Parsed v.
Proof.
  intros v fuel Hp Hf. destruct (print_laid v Hp) as (t & tail & E & L & B).
  rewrite E in *. change (t ++ tail) with ([] ++ t ++ tail).
  apply parse_laid; auto; [constructor|]. rewrite app_length in Hf. lia.
Qed.

(** ** Parsed objects are maps holding the last entry of each key *)

Lemma text_is_eq : forall a b, text_is a b = true <-> a = b.
Proof. intros a b. unfold text_is. destruct (list_eq_dec ascii_dec a b); split; congruence. Qed.

Lemma sorted_keys_cons : forall k v m,
  sorted_keys ((k, v) :: m) <->
  (match m with [] => True | (k', _) :: _ => text_ltb k k' = true end) /\ sorted_keys (A := json) m.
Proof. intros k v [|[k' v'] m]; cbn; tauto. Qed.

Lemma map_put_sorted : forall k v m, sorted_keys m -> sorted_keys (map_put k v m).
Proof.
  intros k v. induction m as [|[k' v'] m IH]; intros H; [exact I|].
  cbn [map_put]. destruct (text_ltb k k') eqn:E1.
  - split; auto.
  - apply sorted_keys_cons in H as [H1 H2].
    destruct (text_ltb k' k) eqn:E2; apply sorted_keys_cons; split; auto.
    + destruct m as [|[k2 v2] m]; cbn [map_put]; [exact E2|].
      destruct (text_ltb k k2); [exact E2|].
      destruct (text_ltb k2 k); exact H1.
Qed.

Lemma map_of_is_map : forall kvs, sorted_keys (map_of kvs).
Proof.
  intros kvs. unfold map_of. assert (sorted_keys (@nil (text * json))) as H by exact I.
  revert H. generalize (@nil (text * json)) as m.
  induction kvs as [|[k v] kvs IH]; intros m H; cbn [fold_left]; auto.
  apply IH. apply map_put_sorted. exact H.
Qed.

Lemma lookup_put : forall k k0 v m, sorted_keys m ->
  lookup k (map_put k0 v m) = if text_is k0 k then Some v else lookup k m.
Proof.
  intros k k0 v. induction m as [|[k' v'] m IH]; intros H; [reflexivity|].
  cbn [map_put]. destruct (text_ltb k0 k') eqn:E1; [reflexivity|].
  apply sorted_keys_cons in H as [H1 H2].
  destruct (text_ltb k' k0) eqn:E2; cbn [lookup].
  - rewrite IH by auto. destruct (text_is k' k) eqn:Ek; [|reflexivity].
    destruct (text_is k0 k) eqn:E0; [|reflexivity].
    apply text_is_eq in Ek, E0. subst. rewrite text_ltb_irrefl in E2. discriminate.
  - pose proof (text_ltb_total _ _ E1 E2). subst. destruct (text_is k' k); reflexivity.
Qed.

Lemma map_of_lookup : forall kvs k, lookup k (map_of kvs) = last_for k kvs None.
Proof.
  intros kvs k. unfold map_of. assert (sorted_keys (@nil (text * json))) as H by exact I.
  change (@None json) with (lookup k []).
  revert H. generalize (@nil (text * json)) as m.
  induction kvs as [|[k' v] kvs IH]; intros m H; cbn [fold_left last_for]; auto.
  rewrite IH by (apply map_put_sorted; exact H). cbn [fst snd].
  rewrite lookup_put by auto. reflexivity.
Qed.
