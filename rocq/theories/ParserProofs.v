(** Lemmas for PropertiesParser.v *)
From stdpp Require Import prelude gmap list relations.
From Verif Require Import ParserModel ParserSpec.
Open Scope Z_scope.

(** ** Comments *)
Lemma contains_close_cons c s : contains_close s → contains_close (c :: s).
Proof. intros (u & v & ->). exists (c :: u), v. reflexivity. Qed.
Lemma spaces_ascii c : c < 128 → spaces c = [space].
Proof. intros H. unfold spaces, len_utf8. rewrite (proj2 (Z.ltb_lt c 128)) by exact H. reflexivity. Qed.
Lemma blank_cons c s : blank (c :: s) = spaces c ++ blank s.
Proof. reflexivity. Qed.
Lemma pp_line body s loc bs pp : newline ∉ body →
  pp_loop (body ++ s) 1 loc bs pp = pp_loop s 1 (loc + length body) bs (pp ++ blank body).
Proof.
  revert loc pp. induction body as [|c body IH]; intros loc pp H.
  - cbn [app length blank]. unfold blank. cbn [mbind list_bind]. rewrite Nat.add_0_r, app_nil_r. reflexivity.
  - apply not_elem_of_cons in H as [Hc H]. cbn [app pp_loop].
    rewrite (proj2 (Z.eqb_neq c newline)) by congruence. rewrite IH by exact H. rewrite blank_cons, app_assoc.
    f_equal. cbn [length]. lia.
Qed.
Lemma pp_line_end s loc bs pp : (s = [] ∨ ∃ v, s = newline :: v) → pp_loop s 1 loc bs pp = pp_loop s 0 loc bs pp.
Proof. intros [->|[v ->]]; reflexivity. Qed.
Lemma pp_star c it loc bs pp :
  pp_loop (star :: c :: it) 2 loc bs pp =
    if c =? star then pp_loop (star :: it) 2 (S loc) bs (pp ++ [space])
    else if c =? slash then pp_loop it 0 (S (S loc)) bs (pp ++ [space; space])
    else pp_loop it 2 (S (S loc)) bs (pp ++ [space] ++ spaces c).
Proof. reflexivity. Qed.
Lemma pp_nostar c it loc bs pp : c ≠ star → pp_loop (c :: it) 2 loc bs pp = pp_loop it 2 (S loc) bs (pp ++ spaces c).
Proof. intros H. cbn [pp_loop]. rewrite (proj2 (Z.eqb_neq c star)) by exact H. reflexivity. Qed.
Lemma pp_block body s loc bs pp : ¬ contains_close (body ++ [star]) →
  pp_loop (body ++ [star; slash] ++ s) 2 loc bs pp = pp_loop s 0 (loc + length body + 2) bs (pp ++ blank body ++ [space; space]).
Proof.
  remember (length body) as n eqn:Hn. assert (Hl : (length body ≤ n)%nat) by lia.
  enough (Q : ∀ n body loc pp, (length body ≤ n)%nat → ¬ contains_close (body ++ [star]) →
    pp_loop (body ++ [star; slash] ++ s) 2 loc bs pp = pp_loop s 0 (loc + length body + 2) bs (pp ++ blank body ++ [space; space])).
  { intros H. rewrite Hn. apply (Q n body loc pp Hl H). }
  clear. induction n as [|n IH]; intros body loc pp Hl H.
  - destruct body; [|cbn in Hl; lia]. cbn [app]. rewrite pp_star. cbn [Z.eqb star slash Pos.eqb length blank mbind list_bind app].
    f_equal. lia.
  - destruct body as [|c body].
    { cbn [app]. rewrite pp_star. cbn [Z.eqb star slash Pos.eqb length blank mbind list_bind app]. f_equal. lia. }
    destruct (decide (c = star)) as [->|Hc].
    2:{ cbn [app]. rewrite pp_nostar by exact Hc. cbn in Hl. rewrite (IH body) by (try lia; intros Q; apply H; cbn [app]; apply contains_close_cons; exact Q).
        rewrite blank_cons, <- !app_assoc. f_equal. cbn [length]. lia. }
    destruct body as [|d body].
    { cbn [app]. rewrite pp_star. rewrite Z.eqb_refl. rewrite pp_star. cbn [Z.eqb star slash Pos.eqb]. rewrite <- app_assoc. f_equal. cbn [length]. lia. }
    cbn [app]. rewrite pp_star. destruct (Z.eqb_spec d star) as [->|Hd].
    { specialize (IH (star :: body) (S loc) (pp ++ [space])). cbn [app length] in *. rewrite IH.
      - rewrite !blank_cons. rewrite <- !app_assoc. f_equal. lia.
      - lia.
      - intros Q. apply H. apply contains_close_cons. exact Q. }
    destruct (Z.eqb_spec d slash) as [->|Hs].
    { destruct H. exists [], (body ++ [star]). reflexivity. }
    cbn in Hl. specialize (IH body (S (S loc)) (pp ++ [space] ++ spaces d)). cbn [app] in IH. cbn [app]. rewrite IH.
    + rewrite !blank_cons. rewrite <- !app_assoc. cbn [app]. f_equal. cbn [length]. lia.
    + lia.
    + intros Q. apply H. cbn [app]. do 2 apply contains_close_cons. exact Q.
Qed.
Lemma pp_unclosed body loc bs pp : ¬ contains_close body → pp_loop body 2 loc bs pp = inl bs.
Proof.
  enough (Q : ∀ n body loc pp, (length body ≤ n)%nat → ¬ contains_close body → pp_loop body 2 loc bs pp = inl bs).
  { exact (Q (length body) body loc pp (le_n _)). }
  clear. induction n as [|n IH]; intros body loc pp Hl H.
  - destruct body; [reflexivity|cbn in Hl; lia].
  - destruct body as [|c body]; [reflexivity|]. cbn in Hl.
    destruct (decide (c = star)) as [->|Hc].
    2:{ rewrite pp_nostar by exact Hc. apply IH; [lia|]. intros Q. apply H. apply contains_close_cons. exact Q. }
    destruct body as [|d body]; [reflexivity|]. rewrite pp_star. cbn in Hl.
    destruct (Z.eqb_spec d star) as [->|Hd].
    { apply IH; [cbn; lia|]. intros Q. apply H. apply contains_close_cons. exact Q. }
    destruct (Z.eqb_spec d slash) as [->|Hs].
    { destruct H. exists [], body. reflexivity. }
    apply IH; [lia|]. intros Q. apply H. do 2 apply contains_close_cons. exact Q.
Qed.
Lemma not_starts_slash c s : c ≠ slash → ¬ starts_comment (c :: s).
Proof. intros H [v [Q|Q]]; injection Q as -> _; apply H; reflexivity. Qed.
Definition prepend (pp : list char) (r : nat + list char) : nat + list char := match r with inl k => inl k | inr t => inr (pp ++ t) end.
Lemma pp_code c s loc bs pp : ¬ starts_comment (c :: s) → pp_loop (c :: s) 0 loc bs pp = pp_loop s 0 (S loc) bs (pp ++ [c]).
Proof.
  intros H. cbn [pp_loop]. destruct (Z.eqb_spec c slash) as [->|]; [|reflexivity].
  destruct s as [|d s]; [reflexivity|].
  destruct (Z.eqb_spec d slash) as [->|Hs]; [destruct H; exists s; left; reflexivity|].
  destruct (Z.eqb_spec d star) as [->|Ht]; [destruct H; exists s; right; reflexivity|].
  cbn [pp_loop]. rewrite (proj2 (Z.eqb_neq d slash)) by exact Hs. rewrite <- app_assoc. reflexivity.
Qed.
Lemma lexes_pp n s r : lexes n s r → ∀ bs pp, pp_loop s 0 n bs pp = prepend pp r.
Proof.
  induction 1 as [n|n c s r H _ IH|n c s k H _ IH|n body s r H E _ IH|n body s k H E _ IH|n body s r H _ IH|n body s k H _ IH|n body H]; intros bs pp.
  - cbn. rewrite app_nil_r. reflexivity.
  - rewrite pp_code by exact H. rewrite IH. cbn. rewrite <- app_assoc. reflexivity.
  - rewrite pp_code by exact H. rewrite IH. reflexivity.
  - cbn [app pp_loop]. rewrite !Z.eqb_refl. rewrite pp_line by exact H. rewrite pp_line_end by exact E.
    replace (S (S n) + length body)%nat with (n + 2 + length body)%nat by lia. rewrite IH. cbn. rewrite <- !app_assoc. reflexivity.
  - cbn [app pp_loop]. rewrite !Z.eqb_refl. rewrite pp_line by exact H. rewrite pp_line_end by exact E.
    replace (S (S n) + length body)%nat with (n + 2 + length body)%nat by lia. rewrite IH. reflexivity.
  - cbn [app pp_loop]. rewrite !Z.eqb_refl. change (star =? slash) with false. cbv iota. rewrite (pp_block body s) by exact H.
    replace (S (S n) + length body + 2)%nat with (n + 2 + length body + 2)%nat by lia. rewrite IH. cbn. rewrite <- !app_assoc. reflexivity.
  - cbn [app pp_loop]. rewrite !Z.eqb_refl. change (star =? slash) with false. cbv iota. rewrite (pp_block body s) by exact H.
    replace (S (S n) + length body + 2)%nat with (n + 2 + length body + 2)%nat by lia. rewrite IH. reflexivity.
  - cbn [app pp_loop]. rewrite !Z.eqb_refl. change (star =? slash) with false. cbv iota. rewrite pp_unclosed by exact H. cbn. f_equal. lia.
Qed.
Lemma split_line s : ∃ body t, s = body ++ t ∧ newline ∉ body ∧ (t = [] ∨ ∃ v, t = newline :: v).
Proof.
  induction s as [|c s (body & t & -> & H & E)].
  - exists [], []. split; [reflexivity|]. split; [apply not_elem_of_nil|auto].
  - destruct (decide (c = newline)) as [->|N].
    + exists [], (newline :: body ++ t). split; [reflexivity|]. split; [apply not_elem_of_nil|eauto].
    + exists (c :: body), t. split; [reflexivity|]. split; [|exact E]. apply not_elem_of_cons. split; [congruence|exact H].
Qed.
Lemma contains_close_inv c s : contains_close (c :: s) → (∃ t, c = star ∧ s = slash :: t) ∨ contains_close s.
Proof.
  intros (u & v & Q). destruct u as [|d u]; injection Q as -> ->.
  - left. eauto.
  - right. exists u, v. reflexivity.
Qed.
Lemma split_block s : (∃ body t, s = body ++ [star; slash] ++ t ∧ ¬ contains_close (body ++ [star])) ∨ ¬ contains_close s.
Proof.
  induction s as [|c s IH].
  - right. intros (u & v & Q). destruct u; discriminate.
  - destruct (decide (c = star ∧ head s = Some slash)) as [[-> E]|N].
    + left. destruct s as [|d s]; [discriminate E|]. injection E as ->. exists [], s. split; [reflexivity|].
      intros (u & v & Q). destruct u as [|a [|b u]]; discriminate.
    + destruct IH as [(body & t & -> & H)|H].
      * left. exists (c :: body), t. split; [reflexivity|]. intros Q. cbn [app] in Q.
        apply contains_close_inv in Q as [(w & -> & Q)|Q]; [|exact (H Q)]. apply N. split; [reflexivity|].
        destruct body as [|d body]; [discriminate Q|]. cbn [app] in Q. injection Q as -> _. reflexivity.
      * right. intros Q. apply contains_close_inv in Q as [(w & -> & ->)|Q]; [|exact (H Q)]. apply N. split; reflexivity.
Qed.
Lemma lexes_total s n : ∃ r, lexes n s r.
Proof.
  enough (Q : ∀ l s n, (length s ≤ l)%nat → ∃ r, lexes n s r) by exact (Q _ s n (le_n _)).
  clear. induction l as [|l IH]; intros s n Hl.
  - destruct s; [|cbn in Hl; lia]. eexists. constructor.
  - destruct s as [|c s]; [eexists; constructor|]. cbn in Hl.
    destruct (decide (c = slash ∧ (head s = Some slash ∨ head s = Some star))) as [[-> E]|N].
    + destruct s as [|d s]; [destruct E; discriminate|]. cbn in Hl. destruct E as [E|E]; injection E as ->.
      * destruct (split_line s) as (body & t & -> & H & E). rewrite app_length in Hl.
        destruct (IH t (n + 2 + length body)%nat) as [[k|r] Hr]; [lia| |].
        -- exists (inl k). exact (lexes_line_unclosed n body t k H E Hr).
        -- eexists. exact (lexes_line n body t r H E Hr).
      * destruct (split_block s) as [(body & t & -> & H)|H].
        -- rewrite !app_length in Hl. destruct (IH t (n + 2 + length body + 2)%nat) as [[k|r] Hr]; [lia| |].
           ++ exists (inl k). exact (lexes_block_unclosed n body t k H Hr).
           ++ eexists. exact (lexes_block n body t r H Hr).
        -- eexists. exact (lexes_unclosed n s H).
    + assert (NC : ¬ starts_comment (c :: s)).
      { intros [v [Q|Q]]; injection Q as -> ->; apply N; split; auto. }
      destruct (IH s (S n)) as [[k|r] Hr]; [lia| |].
      * exists (inl k). constructor; assumption.
      * eexists. constructor; eassumption.
Qed.
Lemma lexes_preprocess s r : preprocess s = r ↔ lexes 0 s r.
Proof.
  assert (Q : ∀ r, lexes 0 s r → preprocess s = r).
  { intros r' H. unfold preprocess. rewrite (lexes_pp _ _ _ H). destruct r'; reflexivity. }
  split; [|apply Q]. intros H. destruct (lexes_total s 0) as [r' Hr]. rewrite <- H, (Q r' Hr). exact Hr.
Qed.

(** positions *)
Definition kept_or_blanked (c : char) (seg : list char) : Prop := seg = [c] ∨ seg = spaces c.
Lemma blanks_aligned s : Forall2 kept_or_blanked s (spaces <$> s) ∧ blank s = concat (spaces <$> s).
Proof.
  induction s as [|c s [IH1 IH2]]; [split; [constructor|reflexivity]|].
  rewrite blank_cons, IH2. split; [|reflexivity]. constructor; [right; reflexivity|exact IH1].
Qed.
Lemma concat_app_ {A} (l1 l2 : list (list A)) : concat (l1 ++ l2) = concat l1 ++ concat l2.
Proof. apply concat_app. Qed.
Lemma lexes_aligned n s r : lexes n s r → ∀ t, r = inr t → ∃ segs, t = concat segs ∧ Forall2 kept_or_blanked s segs.
Proof.
  assert (Hs : kept_or_blanked slash [space] ∧ kept_or_blanked star [space]) by (split; right; reflexivity).
  destruct Hs as [Hs Ht].
  induction 1 as [n|n c s r H _ IH|n c s k H _ IH|n body s r H E _ IH|n body s k H E _ IH|n body s r H _ IH|n body s k H _ IH|n body H]; intros t Ht'; try discriminate Ht'; injection Ht' as <-.
  - exists []. split; [reflexivity|constructor].
  - destruct (IH _ eq_refl) as (segs & -> & F). exists ([c] :: segs). split; [reflexivity|]. constructor; [left; reflexivity|exact F].
  - destruct (IH _ eq_refl) as (segs & -> & F). destruct (blanks_aligned body) as [B1 B2].
    exists ([[space]; [space]] ++ (spaces <$> body) ++ segs). split.
    + rewrite !concat_app_, B2. reflexivity.
    + constructor; [exact Hs|]. constructor; [exact Hs|]. apply Forall2_app; assumption.
  - destruct (IH _ eq_refl) as (segs & -> & F). destruct (blanks_aligned body) as [B1 B2].
    exists ([[space]; [space]] ++ (spaces <$> body) ++ [[space]; [space]] ++ segs). split.
    + rewrite !concat_app_, B2. reflexivity.
    + constructor; [exact Hs|]. constructor; [exact Ht|]. apply Forall2_app; [exact B1|].
      constructor; [exact Ht|]. constructor; [exact Hs|exact F].
Qed.
Lemma utf8_length c : length (utf8 c) = len_utf8 c.
Proof. unfold utf8, len_utf8. destruct (Z.ltb_spec c 128), (Z.ltb_spec c 2048), (Z.ltb_spec c 65536); repeat case_decide; try reflexivity; lia. Qed.
Lemma bytes_cons c s : bytes (c :: s) = (len_utf8 c + bytes s)%nat.
Proof. unfold bytes. rewrite fmap_cons. cbn [concat]. rewrite app_length, utf8_length. reflexivity. Qed.
Lemma bytes_app s t : bytes (s ++ t) = (bytes s + bytes t)%nat.
Proof. unfold bytes. rewrite fmap_app, concat_app, app_length. reflexivity. Qed.
Lemma bytes_spaces c : bytes (spaces c) = len_utf8 c.
Proof. unfold spaces. induction (len_utf8 c) as [|k IH]; [reflexivity|]. cbn [replicate]. rewrite bytes_cons, IH. reflexivity. Qed.
Lemma aligned_bytes s segs : Forall2 kept_or_blanked s segs → ∀ k, bytes (take k s) = bytes (concat (take k segs)).
Proof.
  induction 1 as [|c seg s segs H _ IH]; intros [|k]; try reflexivity.
  cbn [take concat]. rewrite bytes_app, <- IH. change (c :: take k s) with ([c] ++ take k s). rewrite bytes_app. f_equal.
  destruct H as [->| ->]; [reflexivity|]. rewrite bytes_spaces, bytes_cons. unfold bytes. cbn. lia.
Qed.

(** no comment is left *)
Definition has_opening (s : list char) : Prop := ∃ u v, s = u ++ v ∧ starts_comment v.
Lemma has_opening_cons c s : has_opening (c :: s) → starts_comment (c :: s) ∨ has_opening s.
Proof.
  intros (u & v & E & H). destruct u as [|d u]; cbn [app] in E; [subst v; auto|]. injection E as -> ->. right. exists u, v. auto.
Qed.
Lemma has_opening_space s : has_opening (space :: s) → has_opening s.
Proof. intros H. apply has_opening_cons in H as [H|H]; [|exact H]. exfalso. revert H. apply not_starts_slash. discriminate. Qed.
Lemma has_opening_blank b s : has_opening (blank b ++ s) → has_opening s.
Proof.
  induction b as [|c b IH]; [intros H; exact H|]. rewrite blank_cons, <- app_assoc. unfold spaces. induction (len_utf8 c) as [|k IHk]; [exact IH|].
  intros H. apply has_opening_space in H. exact (IHk H).
Qed.
Lemma lexes_no_opening n s r : lexes n s r → ∀ t, r = inr t → ¬ has_opening t ∧ (head t = head s ∨ head t = Some space).
Proof.
  induction 1 as [n|n c s r H _ IH|n c s k H _ IH|n body s r H E _ IH|n body s k H E _ IH|n body s r H _ IH|n body s k H _ IH|n body H]; intros t Ht'; try discriminate Ht'; injection Ht' as <-.
  - split; [|left; reflexivity]. intros (u & v & E & w & [Q|Q]); destruct u; subst; discriminate.
  - destruct (IH _ eq_refl) as [N Hd]. split; [|left; reflexivity]. intros Q. apply has_opening_cons in Q as [Q|Q]; [|exact (N Q)].
    destruct Q as [v [Q|Q]]; injection Q as -> ->; cbn in Hd; destruct Hd as [Hd|Hd]; try discriminate Hd;
      (destruct s as [|d s]; [discriminate Hd|]); injection Hd as <-; apply H; exists s; auto.
  - destruct (IH _ eq_refl) as [N _]. split; [|right; reflexivity]. intros Q. do 2 apply has_opening_space in Q. apply has_opening_blank in Q. exact (N Q).
  - destruct (IH _ eq_refl) as [N _]. split; [|right; reflexivity]. intros Q. do 2 apply has_opening_space in Q. apply has_opening_blank in Q. do 2 apply has_opening_space in Q. exact (N Q).
Qed.
Lemma no_opening_lexes n s : ¬ has_opening s → lexes n s (inr s).
Proof.
  revert n. induction s as [|c s IH]; intros n H; constructor.
  - intros Q. apply H. exists [], (c :: s). auto.
  - apply IH. intros (u & v & -> & Q). apply H. exists (c :: u), v. auto.
Qed.
Lemma lexes_position n s r : lexes n s r → ∀ k, r = inl k → (n + 2 ≤ k)%nat ∧ take 2 (drop (k - n - 2) s) = [slash; star] ∧ ¬ contains_close (drop (k - n) s).
Proof.
  induction 1 as [n|n c s r H _ IH|n c s k H _ IH|n body s r H E _ IH|n body s k H E _ IH|n body s r H _ IH|n body s k H _ IH|n body H]; intros k' Ht'; try discriminate Ht'; injection Ht' as <-.
  - destruct (IH _ eq_refl) as (L & T & N). split; [lia|].
    replace (k - n - 2)%nat with (S (k - S n - 2)) by lia. replace (k - n)%nat with (S (k - S n)) by lia. auto.
  - destruct (IH _ eq_refl) as (L & T & N). split; [lia|].
    rewrite !app_assoc. rewrite !drop_app_ge by (rewrite app_length; cbn; lia). rewrite app_length. cbn [length].
    replace (k - n - 2 - (2 + length body))%nat with (k - (n + 2 + length body) - 2)%nat by lia.
    replace (k - n - (2 + length body))%nat with (k - (n + 2 + length body))%nat by lia. auto.
  - destruct (IH _ eq_refl) as (L & T & N). split; [lia|].
    rewrite !app_assoc. rewrite !drop_app_ge by (rewrite !app_length; cbn; lia). rewrite !app_length. cbn [length].
    replace (k - n - 2 - (2 + length body + 2))%nat with (k - (n + 2 + length body + 2) - 2)%nat by lia.
    replace (k - n - (2 + length body + 2))%nat with (k - (n + 2 + length body + 2))%nat by lia. auto.
  - split; [lia|]. replace (n + 2 - n - 2)%nat with 0%nat by lia. replace (n + 2 - n)%nat with 2%nat by lia. split; [reflexivity|exact H].
Qed.
