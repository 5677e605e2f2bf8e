(** C32 (comments), C33 (includes), C34 (version pragmas), C52 (custom-templates pragma) *)
From stdpp Require Import prelude gmap list relations.
From Verif Require Import ParserModel ParserSpec ParserProofs IncludeProofs.
Open Scope Z_scope.

(** ** C32 *)
(** Comment removal gives exactly what the comment grammar says: comments are blanked, an unclosed block
    comment is an error pointing just after its opening, all other text is kept. *)
Theorem C32_comments : forall s r, preprocess s = r <-> lexes 0 s r.
Proof. exact lexes_preprocess. Qed.
Print Assumptions C32_comments.
(* "a/b // é\nc /* **\n*/d" *)
Definition ex_text : list char := [97; 47; 98; 32; 47; 47; 32; 233; 10; 99; 32; 47; 42; 32; 42; 42; 10; 42; 47; 100].
Example C32_comments_case : preprocess ex_text = inr [97; 47; 98; 32; 32; 32; 32; 32; 32; 10; 99; 32; 32; 32; 32; 32; 32; 32; 32; 32; 100]
  /\ bytes ex_text = 21%nat /\ preprocess [97; 47; 42; 42; 47; 47; 42; 47; 42] = inl 7%nat.
Proof. vm_compute. auto. Qed.

(** Every character is either kept or replaced by as many spaces as it has bytes, so that everything that
    remains is at its original byte offset. *)
Theorem C32_offsets : forall s t, preprocess s = inr t ->
  exists segs, t = concat segs /\
    Forall2 (fun c seg => seg = [c] \/ seg = replicate (length (utf8 c)) space) s segs /\
    (forall k, bytes (take k s) = bytes (concat (take k segs))) /\ bytes t = bytes s.
Proof.
  intros s t H. apply lexes_preprocess in H. destruct (lexes_aligned _ _ _ H t eq_refl) as (segs & -> & F).
  exists segs. split; [reflexivity|]. split; [eapply Forall2_impl; [exact F|]; intros ? ? [?|?]; [left|right; rewrite utf8_length]; assumption|]. pose proof (aligned_bytes _ _ F) as Q. split; [exact Q|].
  specialize (Q (length s)). rewrite take_ge in Q by lia. rewrite take_ge in Q by (rewrite (Forall2_length _ _ _ F); lia). symmetry. exact Q.
Qed.
Print Assumptions C32_offsets.

(** A text without comment openings is unchanged, and the result never has one: stripping twice is
    stripping once. *)
Theorem C32_code_is_untouched : forall s, (forall u v, s = u ++ v -> ~ starts_comment v) -> preprocess s = inr s.
Proof.
  intros s H. apply lexes_preprocess. apply no_opening_lexes. intros (u & v & E & Q). exact (H u v E Q).
Qed.
Print Assumptions C32_code_is_untouched.
Theorem C32_idempotent : forall s t, preprocess s = inr t -> preprocess t = inr t.
Proof.
  intros s t H. apply lexes_preprocess in H. apply lexes_preprocess. apply no_opening_lexes. exact (proj1 (lexes_no_opening _ _ _ H t eq_refl)).
Qed.
Print Assumptions C32_idempotent.

(** The reported position of an unclosed comment counts characters: it is the offset just behind an
    opening that has no closing after it. *)
Theorem C32_unclosed_position : forall s k, preprocess s = inl k ->
  (2 <= k)%nat /\ take 2 (drop (k - 2) s) = [slash; star] /\ ~ contains_close (drop k s).
Proof.
  intros s k H. apply lexes_preprocess in H. destruct (lexes_position _ _ _ H k eq_refl) as (L & T & N).
  rewrite Nat.sub_0_r in *. split; [lia|]. split; [exact T|exact N].
Qed.
Print Assumptions C32_unclosed_position.
(** Reports are positioned in bytes: after a non-ASCII character the position is wrong. *)
Theorem C32_unclosed_byte_position_refuted : exists s k, preprocess s = inl k /\ bytes (take k s) <> k.
Proof. exists [233; 47; 42], 3%nat. vm_compute. split; [reflexivity|discriminate]. Qed.
Print Assumptions C32_unclosed_byte_position_refuted.
(** String literals are not protected: the text between two quotes of one line changes. *)
Theorem C32_string_literal_is_blanked_refuted : exists s t, preprocess (34 :: s ++ [34]) = inr t /\ (34 : char) ∉ s /\ newline ∉ s /\ t <> 34 :: s ++ [34].
Proof.
  exists [97; 47; 47; 98]. eexists. split; [reflexivity|]. split; [apply (bool_decide_unpack _); vm_compute; exact I|].
  split; [apply (bool_decide_unpack _); vm_compute; exact I|]. discriminate.
Qed.
Print Assumptions C32_string_literal_is_blanked_refuted.

(** ** C33 *)
(** For every file system with finitely many files, whatever includes what: the loop ends; no path is
    parsed twice; when all includes are found, the files parsed are exactly those reachable through
    includes from the main file; otherwise it stops at a reachable file with an unknown include. *)
Theorem C33_includes : forall path `{Countable path} name location (parent : path -> location) (canonical : location -> name -> option path)
    (includes : path -> list name) (pragma declares : path -> bool) (src : path) (files : gset path),
  src ∈ files -> (forall l n p, canonical l n = Some p -> p ∈ files) ->
  let run rounds := run_files parent canonical includes pragma declares rounds (stack_new parent src) graph_new [] in
  forall rounds, (size files < rounds)%nat ->
  match run rounds with
  | Some (inr (parsed, _)) => NoDup parsed /\ (forall p, p ∈ parsed <-> needed parent canonical includes src p) /\
      (forall p, needed parent canonical includes src p -> ~ has_unknown_include parent canonical includes p)
  | Some (inl parsed) => NoDup parsed /\ (forall p, p ∈ parsed -> needed parent canonical includes src p) /\
      exists p, p ∈ parsed /\ has_unknown_include parent canonical includes p
  | None => False
  end.
Proof.
  intros path ? ? name location parent canonical includes pragma declares src files Hs Hc run rounds Hr. unfold run.
  assert (HU : forall p, needed parent canonical includes src p -> p ∈ files).
  { intros p Q. apply rtc_inv_r in Q as [<-|(z & _ & n & _ & Q)]; [exact Hs|exact (Hc _ _ _ Q)]. }
  pose proof (run_files_inv parent canonical includes pragma declares src files rounds _ _ _ HU (inv_new parent canonical includes pragma declares src)) as Q.
  cbn [black_paths stack_new] in Q. rewrite difference_empty_L in Q. specialize (Q Hr).
  destruct (run_files _ _ _ _ _ rounds _ _ _) as [[l|[l g]]|]; [| |exact Q].
  - destruct Q as (Q1 & Q2 & p & Q3 & Q4). split; [exact Q1|]. split; [exact Q2|]. exists p. split; [|exact Q4]. apply last_Some in Q3 as [l' ->]. apply elem_of_app. right. left.
  - destruct Q as (f & HI & HS). pose proof (inv_final _ _ _ _ _ _ _ _ _ HI HS) as F. split; [exact (inv_nodup _ _ _ _ _ _ _ _ _ HI)|].
    split; [exact F|]. intros p Hp. apply (inv_known _ _ _ _ _ _ _ _ _ HI). apply F. exact Hp.
Qed.
Print Assumptions C33_includes.

(** Four files: 0 includes 1 and 2, 1 includes 2 and 3, 2 includes 1 (a cycle), 3 includes nothing *)
Definition ex_includes (p : nat) : list nat := match p with 0%nat => [1; 2] | 1%nat => [2; 3] | 2%nat => [1] | _ => [] end%nat.
Definition ex_canonical (_ : unit) (n : nat) : option nat := if (n <? 4)%nat then Some n else None.
Example C33_case : exists g, run_files (fun _ => tt) ex_canonical ex_includes (fun _ => true) (fun _ => false) 5 (stack_new (fun _ => tt) 0%nat) graph_new [] = Some (inr ([0; 2; 1; 3]%nat, g)).
Proof. eexists. vm_compute. reflexivity. Qed.

(** The main file is put on the stack under the path the user gave, which is not canonical: if it is
    included again it is parsed a second time.  [real p] is the file a path leads to. *)
Theorem C33_main_file_parsed_twice_refuted : exists (real : nat -> nat) (canonical : unit -> nat -> option nat) (includes : nat -> list nat) (parsed : list nat) g,
  (forall l n p, canonical l n = Some p -> real p = p) /\ (forall p, includes (real p) = includes p) /\
  run_files (fun _ => tt) canonical includes (fun _ => true) (fun _ => false) 5 (stack_new (fun _ => tt) 0%nat) graph_new [] = Some (inr (parsed, g)) /\
  ~ NoDup (real <$> parsed).
Proof.
  exists (fun p => match p with 0%nat => 1%nat | p => p end), (fun _ n => Some (S n)), (fun p => match p with 0%nat | 1%nat => [1%nat] | 2%nat => [0%nat] | _ => [] end), [0; 2; 1]%nat.
  eexists. split; [intros l n p [= <-]; reflexivity|]. split; [intros [|p]; reflexivity|]. split; [vm_compute; reflexivity|].
  cbn. intros Q. apply NoDup_cons in Q as [Q _]. apply Q. right. left.
Qed.
Print Assumptions C33_main_file_parsed_twice_refuted.

(** If the given path is canonical, every file is parsed once. *)
Theorem C33_each_file_once : forall path `{Countable path} name location (parent : path -> location) (canonical : location -> name -> option path)
    (includes : path -> list name) (pragma declares : path -> bool) (src : path) (files : gset path) (real : path -> path),
  src ∈ files -> (forall l n p, canonical l n = Some p -> p ∈ files) ->
  (forall l n p, canonical l n = Some p -> real p = p) -> real src = src ->
  forall rounds parsed g, (size files < rounds)%nat ->
  run_files parent canonical includes pragma declares rounds (stack_new parent src) graph_new [] = Some (inr (parsed, g)) -> NoDup (real <$> parsed).
Proof.
  intros path ? ? name location parent canonical includes pragma declares src files real Hs Hc Hr Hsrc rounds parsed g HR Hrun.
  pose proof (C33_includes path name location parent canonical includes pragma declares src files Hs Hc rounds HR) as Q. cbv beta zeta in Q. rewrite Hrun in Q.
  destruct Q as (ND & HP & _).
  assert (real <$> parsed = parsed) as ->; [|exact ND].
  assert (F : forall p, p ∈ parsed -> real p = p).
  { intros p Hp. apply HP in Hp. apply rtc_inv_r in Hp as [<-|(z & _ & n & _ & Hp)]; [exact Hsrc|exact (Hr _ _ _ Hp)]. }
  clear -F. induction parsed as [|p l IH]; [reflexivity|]. cbn. rewrite F by left. rewrite IH; [reflexivity|]. intros q Hq. apply F. right. exact Hq.
Qed.
Print Assumptions C33_each_file_once.

(** ** C34 *)
(** A file's version pragma is accepted iff the major numbers agree and (minor, patch) is at most the
    compiler's in lexicographic order. *)
Theorem C34_version : forall r0 r1 r2 c0 c1 c2,
  (check_number_version (Some (r0, r1, r2)) (c0, c1, c2) = Accepted <-> r0 = c0 /\ (r1 < c1 \/ r1 = c1 /\ r2 <= c2)%nat) /\
  (check_number_version (Some (r0, r1, r2)) (c0, c1, c2) <> Accepted -> check_number_version (Some (r0, r1, r2)) (c0, c1, c2) = Rejected).
Proof.
  intros r0 r1 r2 c0 c1 c2. unfold check_number_version.
  destruct ((r0 =? c0)%nat && ((r1 <? c1)%nat || ((r1 =? c1)%nat && (r2 <=? c2)%nat))) eqn:E.
  - split; [|intros Q; destruct Q; reflexivity]. split; [|reflexivity]. intros _.
    apply andb_true_iff in E as [E1 E2]. apply Nat.eqb_eq in E1. apply orb_true_iff in E2 as [E2|E2].
    + apply Nat.ltb_lt in E2. auto.
    + apply andb_true_iff in E2 as [E2 E3]. apply Nat.eqb_eq in E2. apply Nat.leb_le in E3. auto.
  - split; [|reflexivity]. split; [discriminate|]. intros (-> & Q). exfalso. rewrite Nat.eqb_refl in E. cbn in E. apply orb_false_iff in E as [E1 E2].
    apply Nat.ltb_ge in E1. destruct Q as [Q|[-> Q]]; [lia|]. rewrite Nat.eqb_refl in E2. cbn in E2. apply Nat.leb_gt in E2. lia.
Qed.
Print Assumptions C34_version.
(** Custom templates need version 2.0.6: of the pragma if there is one, of the compiler otherwise. *)
Theorem C34_custom_templates_version : forall file compiler,
  check_custom_gates_version file compiler = true <->
  let '(a, b, c) := default compiler file in (2 < a \/ a = 2 /\ (0 < b \/ b = 0 /\ 6 <= c))%nat.
Proof.
  intros file compiler. assert (Q : forall a b c, negb ((a <? 2)%nat || ((a =? 2)%nat && (b <? 0)%nat) || ((a =? 2)%nat && (b =? 0)%nat && (c <? 6)%nat)) = true <-> (2 < a \/ a = 2 /\ (0 < b \/ b = 0 /\ 6 <= c))%nat).
  { intros a b c. rewrite negb_true_iff, !orb_false_iff, !andb_false_iff, !Nat.ltb_ge, !Nat.eqb_neq. lia. }
  unfold check_custom_gates_version. destruct file as [[[a b] c]|]; [apply Q|]. destruct compiler as [[a b] c]. apply Q.
Qed.
Print Assumptions C34_custom_templates_version.
Example C34_case : check_number_version (Some (2, 1, 9)%nat) (2, 2, 0)%nat = Accepted /\ check_number_version (Some (2, 2, 1)%nat) (2, 2, 0)%nat = Rejected /\
  check_number_version (Some (1, 0, 0)%nat) (2, 2, 0)%nat = Rejected /\ check_number_version None (2, 2, 0)%nat = AcceptedWithWarning /\
  check_custom_gates_version (Some (2, 0, 5)%nat) (2, 2, 0)%nat = false /\ check_custom_gates_version None (2, 2, 0)%nat = true.
Proof. auto 10. Qed.

(** ** C52 *)
(** After a run that finds all includes, the traversal of the include graph ends and reports nothing iff
    every file that includes, directly or not, a file declaring a custom template has the pragma; every
    reported chain starts at a declaring file, goes from included to including files and ends at a file
    without the pragma. *)
Theorem C52_custom_templates_pragma : forall path `{Countable path} name location (parent : path -> location) (canonical : location -> name -> option path)
    (includes : path -> list name) (pragma declares : path -> bool) (src : path) (files : gset path),
  src ∈ files -> (forall l n p, canonical l n = Some p -> p ∈ files) ->
  forall rounds parsed g, (size files < rounds)%nat ->
  run_files parent canonical includes pragma declares rounds (stack_new parent src) graph_new [] = Some (inr (parsed, g)) ->
  forall fuel, (length parsed * length parsed < fuel)%nat ->
  exists chains, get_problematic_paths fuel g = Some chains /\
    (chains = [] <-> forall p q, p ∈ parsed -> rtc (file_includes parent canonical includes) p q -> declares q = true -> pragma p = true) /\
    (forall ch, ch ∈ chains -> exists q p, declares q = true /\ pragma p = false /\ chain (flip (file_includes parent canonical includes)) q ch p).
Proof.
  intros path ? ? name location parent canonical includes pragma declares src files Hs Hc rounds parsed g Hr Hrun fuel Hf.
  assert (HU : forall p, needed parent canonical includes src p -> p ∈ files).
  { intros p Q. apply rtc_inv_r in Q as [<-|(z & _ & n & _ & Q)]; [exact Hs|exact (Hc _ _ _ Q)]. }
  pose proof (run_files_inv parent canonical includes pragma declares src files rounds _ _ _ HU (inv_new parent canonical includes pragma declares src)) as Q.
  cbn [black_paths stack_new] in Q. rewrite difference_empty_L in Q. specialize (Q Hr). rewrite Hrun in Q. destruct Q as (f & HI & HS).
  pose proof (inv_final _ _ _ _ _ _ _ _ _ HI HS) as F.
  assert (HL : length (g_nodes g) = length parsed) by (rewrite (inv_nodes _ _ _ _ _ _ _ _ _ HI), fmap_length; reflexivity).
  destruct (problematic_spec g) with (fuel := fuel) as (chains & E & Hps).
  { intros i j Q. apply (inv_gedge _ _ _ _ _ _ _ _ _ _ _ HI) in Q as (p & q & _ & Q & _). rewrite HL. eapply lookup_lt_Some. exact Q. }
  { intros i Q. apply (inv_custom _ _ _ _ _ _ _ _ _ HI) in Q as (p & Q & _). rewrite HL. eapply lookup_lt_Some. exact Q. }
  { rewrite HL. exact Hf. }
  exists chains. split; [exact E|]. split.
  - split.
    + intros -> p q Hp Hpq Hq. destruct (pragma p) eqn:P; [reflexivity|]. exfalso.
      assert (needed parent canonical includes src p) as Np by (apply F; exact Hp).
      assert (q ∈ parsed) as Hqp by (apply F; exact (rtc_transitive _ _ _ Np Hpq)).
      apply elem_of_list_lookup in Hqp as [i Hi].
      destruct (inv_rtc _ _ _ _ _ _ _ _ _ _ _ _ HI HS Hpq Np Hi) as (k & Hk & Hr2).
      apply rtc_chain in Hr2 as (is & HC & HN).
      assert (W : (is ≫= npath g) ∈ ([] : list (list path))); [|inversion W].
      apply Hps. exists i, is, k. split; [apply (inv_custom _ _ _ _ _ _ _ _ _ HI); eauto|].
      split; [apply chain_walk; [exact HC|exact HN|intros e Q; inversion Q]|].
      split; [apply (inv_lacks _ _ _ _ _ _ _ _ _ _ HI); eauto|reflexivity].
    + intros HA. destruct chains as [|ch chains]; [reflexivity|]. exfalso.
      destruct (proj1 (Hps ch)) as (i & is & k & Hi & HW & HK & _); [left|].
      apply (inv_custom _ _ _ _ _ _ _ _ _ HI) in Hi as (q & Hq & Hd). apply walk_chain in HW.
      destruct (inv_chain _ _ _ _ _ _ _ _ _ _ _ _ HI (lookup_lt_Some _ _ _ Hq) HW) as (q' & p & Hq' & Hp & HC).
      assert (q' = q) as -> by congruence. apply (inv_lacks _ _ _ _ _ _ _ _ _ _ HI) in HK as (p' & Hp' & HF). assert (p' = p) as -> by congruence.
      apply chain_rtc in HC. rewrite (HA p q) in HF; [discriminate HF| | |exact Hd].
      * apply elem_of_list_lookup. eauto.
      * clear -HC. induction HC as [|a b c Hab _ IH]; [apply rtc_refl|]. eapply rtc_r; [exact IH|exact Hab].
  - intros ch Hch. apply Hps in Hch as (i & is & k & Hi & HW & HK & ->).
    apply (inv_custom _ _ _ _ _ _ _ _ _ HI) in Hi as (q & Hq & Hd). apply walk_chain in HW.
    destruct (inv_chain _ _ _ _ _ _ _ _ _ _ _ _ HI (lookup_lt_Some _ _ _ Hq) HW) as (q' & p & Hq' & Hp & HC).
    assert (q' = q) as -> by congruence. apply (inv_lacks _ _ _ _ _ _ _ _ _ _ HI) in HK as (p' & Hp' & HF). assert (p' = p) as -> by congruence.
    exists q, p. auto.
Qed.
Print Assumptions C52_custom_templates_pragma.
(** file 3 declares a custom template; file 2, which includes it through 1, has no pragma *)
Definition ex_graph (pragma declares : nat -> bool) : @includes_graph nat _ _ :=
  match run_files (fun _ => tt) ex_canonical ex_includes pragma declares 5 (stack_new (fun _ => tt) 0%nat) graph_new [] with Some (inr (_, g)) => g | _ => graph_new end.
Example C52_case :
  (exists g, run_files (fun _ => tt) ex_canonical ex_includes (fun p => negb (p =? 2)%nat) (fun p => p =? 3)%nat 5 (stack_new (fun _ => tt) 0%nat) graph_new [] = Some (inr ([0; 2; 1; 3]%nat, g))) /\
  get_problematic_paths 17 (ex_graph (fun p => negb (p =? 2)%nat) (fun p => p =? 3)%nat) = Some [[3; 1; 2]]%nat /\
  get_problematic_paths 17 (ex_graph (fun p => negb (p =? 3)%nat) (fun p => p =? 2)%nat) = Some [].
Proof. split; [eexists; vm_compute; reflexivity|]. vm_compute. auto. Qed.
