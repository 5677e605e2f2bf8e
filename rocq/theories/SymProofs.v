(** Proofs about symbolic execution and the filters. *)
From stdpp Require Import prelude gmap list.
From Coq Require Import ZArith Znumtheory Lia.
From Verif Require Import ModArithModel ModArithProofs AlgebraModel AlgebraSpec AlgebraProofs TreeProofs
  SymModel SymSpec.
Open Scope Z_scope.

(** Unfolding equations (the bodies are those of the definitions). *)
Section Unfold.
Context (p : Z) (wire : nat -> list Z -> option nat) (F : funs) (M : mode).
Notation sexpr := (sexpr p wire F).
Notation sstmt := (sstmt p wire F).
Notation ev := (ev p wire F M).
Notation run := (run p wire F M).
Notation run_seq := (run_seq M).
Lemma sexpr_S n E a e : sexpr (S n) E a e =
      match e with
      | ENum id v => Some (Number v, computed id (Number v) a)
      | EVar id x idx =>
          '(vs, a1) ← sall (sexpr n E) a idx;
          match access_of vs with
          | AccError => None
          | AccUnknown => Some (NonQuadratic, computed id NonQuadratic a1)
          | AccKnown l => c ← get x E; v ← c !! l; Some (v, computed id v a1)
          end
      | ESig id s idx =>
          '(vs, a1) ← sall (sexpr n E) a idx;
          match access_of vs with
          | AccError => None
          | AccUnknown => Some (NonQuadratic, computed id NonQuadratic a1)
          | AccKnown l => k ← wire s l; Some (Signal (S k), computed id (Signal (S k)) a1)
          end
      | EInfix id op l r =>
          '(x, a1) ← sexpr n E a l;
          '(y, a2) ← sexpr n E a1 r;
          v ← of_res (execute_infix_op op x y p);
          Some (v, computed id v a2)
      | EPrefix id op e1 =>
          '(x, a1) ← sexpr n E a e1;
          let v := execute_prefix_op op x p in
          Some (v, computed id v a1)
      | ESwitch id c t f =>
          '(x, a1) ← sexpr n E a c;
          match bool_of x p with
          | Some b =>
              '(v, a2) ← sexpr n E a1 (if b then t else f);
              Some (v, computed id v a2)
          | None => Some (NonQuadratic, computed id NonQuadratic (skip [t; f] a1))
          end
      | ECall id f args =>
          '(vs, a1) ← sall (sexpr n E) a args;
          '(xs, body) ← F f;
          if bool_decide (length xs = length vs) then
            o ← sseq (sstmt n true false) (bind_args xs vs) a1 body;
            v ← o_ret o;
            Some (v, if o_simp o then computed id v (o_an o) else o_an o)
          else None
      end.
Proof. reflexivity. Qed.
Lemma sstmt_S n fn unk E a s : sstmt (S n) fn unk E a s =
      let a := reached (sid s) a in
      match s with
      | SInit _ l =>
          o ← sseq (sstmt n fn unk) E a l;
          Some (Out (o_ret o) true (o_cs o) (o_env o) (o_an o))
      | SDecl _ x dims =>
          '(vs, a1) ← sall (sexpr n E) a dims;
          match access_of vs with
          | AccKnown ds => E1 ← declare x (full ds undefined_cell) E; Some (Out None true [] E1 a1)
          | _ => None
          end
      | SAssign _ x idx e =>
          '(vs, a1) ← sall (sexpr n E) a idx;
          '(v, a2) ← sexpr n E a1 e;
          c ← get x E;
          match access_of vs with
          | AccError => None
          | AccUnknown => Some (Out None true [] (put x ((fun _ => NonQuadratic) <$> c) E) a2)
          | AccKnown l =>
              _ ← c !! l;
              Some (Out None true [] (put x (<[l := if unk then NonQuadratic else v]> c) E) a2)
          end
      | SFill _ x dims e =>
          '(vs, a1) ← sall (sexpr n E) a dims;
          '(v, a2) ← sexpr n E a1 e;
          c ← get x E;
          match access_of vs with
          | AccKnown ds =>
              let w := full ds (if unk then NonQuadratic else v) in
              if bool_decide (dom c = dom w) then Some (Out None true [] (put x w E) a2) else None
          | _ => None
          end
      | SSignal _ eq s idx e =>
          '(vs, a1) ← sall (sexpr n E) a idx;
          '(v, a2) ← sexpr n E a1 e;
          if fn then None else
          match access_of vs with
          | AccKnown l =>
              k ← wire s l;
              if eq then
                if unk then None else
                d ← of_res (asub (Signal (S k)) v p);
                c ← to_constraint d p;
                Some (Out None true [c] E a2)
              else Some (Out None true [] E a2)
          | _ => None
          end
      | SEqual _ l r =>
          if fn || unk then None else
          '(x, a1) ← sexpr n E a l;
          '(y, a2) ← sexpr n E a1 r;
          d ← of_res (asub x y p);
          c ← to_constraint d p;
          Some (Out None true [c] E a2)
      | SIf _ c t f =>
          '(o, _) ← scond p (sexpr n E) (sstmt n fn) unk E a c t f;
          Some o
      | SWhile id c b =>
          '(o, k) ← scond p (sexpr n E) (sstmt n fn) unk E a c b None;
          match k, o_ret o with
          | Some false, _ => Some o
          | _, Some _ => Some o
          | Some true, None =>
              o2 ← sstmt n fn unk (o_env o) (o_an o) (SWhile id c b);
              Some (Out (o_ret o2) (o_simp o && o_simp o2) (o_cs o ++ o_cs o2) (o_env o2) (o_an o2))
          | None, None =>
              '(o2, _) ← scond p (sexpr n (o_env o)) (sstmt n fn) unk (o_env o) (o_an o) c b None;
              Some (Out (o_ret o2) (o_simp o) (o_cs o ++ o_cs o2) (o_env o2)
                        (note_stable (bool_decide (o_env o2 = o_env o)) (o_an o2)))
          end
      | SBlock _ l =>
          o ← sseq (sstmt n fn unk) (∅ :: E) a l;
          Some (Out (o_ret o) (o_simp o) (o_cs o) (tail (o_env o)) (o_an o))
      | SReturn _ e =>
          if fn then
            '(v, a1) ← sexpr n E a e;
            Some (Out (Some (if unk then NonQuadratic else v)) true [] E a1)
          else None
      | SAssert _ e =>
          '(v, a1) ← sexpr n E a e;
          match bool_of v p with
          | Some true => Some (Out None true [] E a1)
          | Some false => None
          | None => Some (Out None false [] E a1)
          end
      | SLog _ es =>
          '(_, a1) ← sall (sexpr n E) a es;
          Some (Out None false [] E a1)
      end.
Proof. reflexivity. Qed.
Lemma ev_S n E σ e v tr : ev (S n) E σ e v tr =
      match e with
      | ENum _ z => v = z mod p /\ tr = []
      | EVar _ x idx => exists is c, ev_all (ev n E σ) idx is tr /\ get x E = Some c /\ c !! is = Some v
      | ESig _ s idx => exists is k, ev_all (ev n E σ) idx is tr /\ wire s is = Some k /\ rd M σ k v
      | EInfix _ op l r => exists x y t1 t2,
          ev n E σ l x t1 /\ ev n E σ r y t2 /\ infix_den p op x y v /\ tr = t1 ++ t2
      | EPrefix _ op e => exists x, ev n E σ e x tr /\ prefix_den p op x v
      | ESwitch _ c t f => exists b t1 t2,
          ev n E σ c b t1 /\ ev n E σ (if b =? 0 then f else t) v t2 /\ tr = t1 ++ t2
      | ECall _ f args => exists xs body vs t1 t2 E',
          F f = Some (xs, body) /\ ev_all (ev n E σ) args vs t1 /\ length xs = length vs /\
          run_seq (run n) (bind_args xs vs) σ body t2 (Some v) E' σ /\ tr = t1 ++ t2
      end.
Proof. reflexivity. Qed.
Lemma run_S n E σ s tr r E' σ' : run (S n) E σ s tr r E' σ' =
      match s with
      | SInit _ l => run_seq (run n) E σ l tr r E' σ'
      | SDecl _ x dims => exists ds, ev_all (ev n E σ) dims ds tr /\
          declare x (full ds 0) E = Some E' /\ r = None /\ σ' = σ
      | SAssign _ x idx e => exists is v c t1 t2,
          ev_all (ev n E σ) idx is t1 /\ ev n E σ e v t2 /\ get x E = Some c /\ is_Some (c !! is) /\
          E' = put x (<[is := v]> c) E /\ tr = t1 ++ t2 /\ r = None /\ σ' = σ
      | SFill _ x dims e => exists ds v c t1 t2,
          ev_all (ev n E σ) dims ds t1 /\ ev n E σ e v t2 /\ get x E = Some c /\ dom c = dom (full ds v) /\
          E' = put x (full ds v) E /\ tr = t1 ++ t2 /\ r = None /\ σ' = σ
      | SSignal _ eq s idx e => exists is v k t1 t2,
          ev_all (ev n E σ) idx is t1 /\ ev n E σ e v t2 /\ wire s is = Some k /\ wr M σ k v σ' /\
          E' = E /\ r = None /\
          if eq then exists l, rd M σ' k l /\ tr = t1 ++ t2 ++ [EvSet k v; EvEq true l v]
          else tr = t1 ++ t2 ++ [EvSet k v]
      | SEqual _ l r0 => exists x y t1 t2,
          ev n E σ l x t1 /\ ev n E σ r0 y t2 /\ tr = t1 ++ t2 ++ [EvEq false x y] /\
          r = None /\ E' = E /\ σ' = σ
      | SIf _ c t f => exists b t1 t2, ev n E σ c b t1 /\ tr = t1 ++ t2 /\
          if b =? 0 then
            match f with
            | Some f => run n E σ f t2 r E' σ'
            | None => t2 = [] /\ r = None /\ E' = E /\ σ' = σ
            end
          else run n E σ t t2 r E' σ'
      | SWhile id c b => exists v t1 t2, ev n E σ c v t1 /\ tr = t1 ++ t2 /\
          if v =? 0 then t2 = [] /\ r = None /\ E' = E /\ σ' = σ
          else exists t3 r1 E1 σ1, run n E σ b t3 r1 E1 σ1 /\
            match r1 with
            | Some x => t2 = t3 /\ r = Some x /\ E' = E1 /\ σ' = σ1
            | None => exists t4, run n E1 σ1 (SWhile id c b) t4 r E' σ' /\ t2 = t3 ++ t4
            end
      | SBlock _ l => exists E1, run_seq (run n) (∅ :: E) σ l tr r E1 σ' /\ E' = tail E1
      | SReturn _ e => exists v, ev n E σ e v tr /\ r = Some v /\ E' = E /\ σ' = σ
      | SAssert _ e => exists v t, ev n E σ e v t /\ tr = t ++ [EvAssert (negb (v =? 0))] /\
          r = None /\ E' = E /\ σ' = σ
      | SLog _ es => exists vs t, ev_all (ev n E σ) es vs t /\ tr = t ++ [EvLog vs] /\
          r = None /\ E' = E /\ σ' = σ
      end.
Proof. reflexivity. Qed.
End Unfold.
#[global] Opaque sexpr sstmt ev run.


(** ** The analysis only grows *)
Definition kle (o o' : option known) : Prop :=
  match o, o' with
  | None, _ => True
  | Some (Val x), Some (Val y) => x = y
  | Some _, Some Top => True
  | _, _ => False
  end.
Definition ale (a a' : analysis) : Prop :=
  a_reached a ⊆ a_reached a' /\ (forall id, kle (a_computed a !! id) (a_computed a' !! id)) /\
  (forall e, e ∈ a_skipped a -> e ∈ a_skipped a') /\ (a_stable a' = true -> a_stable a = true).

Lemma kle_refl o : kle o o.
Proof. destruct o as [[]|]; cbn; auto. Qed.
Lemma kle_trans o o' o'' : kle o o' -> kle o' o'' -> kle o o''.
Proof. destruct o as [[]|], o' as [[]|], o'' as [[]|]; cbn; try tauto; congruence. Qed.
Lemma ale_refl a : ale a a.
Proof. repeat split; auto using kle_refl. Qed.
Lemma ale_trans a b c : ale a b -> ale b c -> ale a c.
Proof.
  intros (A1 & A2 & A3 & A4) (B1 & B2 & B3 & B4). split; [set_solver|].
  split; [intros; eapply kle_trans; eauto|]. auto.
Qed.
Lemma kle_lub o k : kle o (Some (lub o k)).
Proof. destruct o as [[]|], k; cbn; auto. destruct (Z.eqb_spec v v0); cbn; auto. Qed.
Lemma ale_computed id v a : ale a (computed id v a).
Proof.
  split; [done|]. split; [|auto]. intros j. cbn. destruct (decide (id = j)) as [->|].
  - rewrite lookup_insert. apply kle_lub.
  - rewrite lookup_insert_ne by done. apply kle_refl.
Qed.
Lemma ale_reached id a : ale a (reached id a).
Proof. split; [set_solver|]. split; auto using kle_refl. Qed.
Lemma ale_skip l a : ale a (skip l a).
Proof. split; [done|]. split; [auto using kle_refl|]. split; [|auto]. cbn. set_solver. Qed.
Lemma ale_stable b a : ale a (note_stable b a).
Proof.
  split; [done|]. split; [auto using kle_refl|]. split; [auto|]. cbn. rewrite andb_true_iff. tauto.
Qed.

Ltac bd H := apply bind_Some in H;
  let x := fresh "x" in let Hx := fresh "Hx" in destruct H as (x & Hx & H); try destruct x as [? ?].

Lemma sall_le f a l vs a' :
  (forall a e v a', f a e = Some (v, a') -> ale a a') -> sall f a l = Some (vs, a') -> ale a a'.
Proof.
  intros Hf. revert a vs a'. induction l as [|e l IH]; intros a vs a' H; cbn in H.
  - injection H as <- <-. apply ale_refl.
  - bd H. bd H. injection H as <- <-. eauto using ale_trans.
Qed.
Lemma sseq_le f E a l o :
  (forall E a s o, f E a s = Some o -> ale a (o_an o)) -> sseq f E a l = Some o -> ale a (o_an o).
Proof.
  intros Hf. revert E a o. induction l as [|e l IH]; intros E a o H; cbn in H.
  - injection H as <-. apply ale_refl.
  - apply bind_Some in H as (o1 & H1 & H). destruct (o_ret o1).
    + injection H as <-. eauto.
    + apply bind_Some in H as (o2 & H2 & H). injection H as <-. cbn. eauto using ale_trans.
Qed.
Lemma scond_le p fe fs unk E a c t f o k :
  (forall a e v a', fe a e = Some (v, a') -> ale a a') ->
  (forall unk E a s o, fs unk E a s = Some o -> ale a (o_an o)) ->
  scond p fe fs unk E a c t f = Some (o, k) -> ale a (o_an o).
Proof.
  intros He Hs H. unfold scond in H. apply bind_Some in H as ([v a1] & Hc & H). apply He in Hc.
  destruct (bool_of v p) as [[]|].
  - apply bind_Some in H as (o1 & H1 & H). injection H as <- <-. eauto using ale_trans.
  - destruct f; [|injection H as <- <-; done].
    apply bind_Some in H as (o1 & H1 & H). injection H as <- <-. eauto using ale_trans.
  - apply bind_Some in H as (o1 & H1 & H). destruct f.
    + apply bind_Some in H as (o2 & H2 & H). injection H as <- <-. cbn. eauto using ale_trans.
    + injection H as <- <-. eauto using ale_trans.
Qed.

Section Mono.
Context (p : Z) (wire : nat -> list Z -> option nat) (F : funs).
Notation sexpr := (sexpr p wire F).
Notation sstmt := (sstmt p wire F).
Lemma exec_le n :
  (forall E a e v a', sexpr n E a e = Some (v, a') -> ale a a') /\
  (forall fn unk E a s o, sstmt n fn unk E a s = Some o -> ale a (o_an o)).
Proof.
  induction n as [|n [IHe IHs]]; [split; intros; discriminate|].
  assert (LA : forall E a l vs a', sall (sexpr n E) a l = Some (vs, a') -> ale a a').
  { intros E a l vs a' H. eapply sall_le; [|exact H]. intros; eauto. }
  assert (LS : forall fn unk E a l o, sseq (sstmt n fn unk) E a l = Some o -> ale a (o_an o)).
  { intros fn unk E a l o H. eapply sseq_le; [|exact H]. intros; eauto. }
  assert (LC : forall fn unk E a c t f o k, scond p (sexpr n E) (sstmt n fn) unk E a c t f = Some (o, k) -> ale a (o_an o)).
  { intros fn unk E a c t f o k H. eapply scond_le; [| |exact H]; intros; eauto. }
  split.
  - intros E a e v a' H. rewrite sexpr_S in H. destruct e.
    + injection H as <- <-. apply ale_computed.
    + bd H. apply LA in Hx. destruct (access_of l); try discriminate.
      * injection H as <- <-. eauto using ale_trans, ale_computed.
      * apply bind_Some in H as (c & _ & H). apply bind_Some in H as (w & _ & H). injection H as <- <-.
        eauto using ale_trans, ale_computed.
    + bd H. apply LA in Hx. destruct (access_of l); try discriminate.
      * injection H as <- <-. eauto using ale_trans, ale_computed.
      * apply bind_Some in H as (w & _ & H). injection H as <- <-. eauto using ale_trans, ale_computed.
    + bd H. bd H. apply bind_Some in H as (w & _ & H). injection H as <- <-.
      eauto using ale_trans, ale_computed.
    + bd H. injection H as <- <-. eauto using ale_trans, ale_computed.
    + bd H. destruct (bool_of a0 p).
      * bd H. injection H as <- <-. eauto using ale_trans, ale_computed.
      * injection H as <- <-. eauto using ale_trans, ale_computed, ale_skip.
    + bd H. bd H. case_bool_decide; [|discriminate].
      apply bind_Some in H as (o & Ho & H). apply bind_Some in H as (w & _ & H). injection H as <- <-.
      apply LA in Hx. apply LS in Ho. destruct (o_simp o); eauto using ale_trans, ale_computed.
  - intros fn unk E a s o H. rewrite sstmt_S in H. cbv zeta in H.
    apply (ale_trans _ (reached (sid s) a)); [apply ale_reached|]. revert H.
    generalize (reached (sid s) a). clear a. intros a H. destruct s.
    + apply bind_Some in H as (o1 & H1 & H). injection H as <-. cbn. eauto.
    + bd H. apply LA in Hx. destruct (access_of l); try discriminate.
      apply bind_Some in H as (E1 & _ & H). injection H as <-. done.
    + bd H. bd H. apply bind_Some in H as (c & _ & H). apply LA in Hx.
      destruct (access_of l); try discriminate.
      * injection H as <-. cbn. eauto using ale_trans.
      * apply bind_Some in H as (w & _ & H). injection H as <-. cbn. eauto using ale_trans.
    + bd H. bd H. apply bind_Some in H as (c & _ & H). apply LA in Hx.
      destruct (access_of l); try discriminate. cbv zeta in H.
      case_bool_decide; [|discriminate]. injection H as <-. cbn. eauto using ale_trans.
    + bd H. bd H. apply LA in Hx. destruct fn; [discriminate|].
      destruct (access_of l); try discriminate. apply bind_Some in H as (k & _ & H). destruct eq.
      * destruct unk; [discriminate|]. apply bind_Some in H as (d & _ & H).
        apply bind_Some in H as (c & _ & H). injection H as <-. cbn. eauto using ale_trans.
      * injection H as <-. cbn. eauto using ale_trans.
    + destruct (fn || unk); [discriminate|]. bd H. bd H. apply bind_Some in H as (d & _ & H).
      apply bind_Some in H as (c & _ & H). injection H as <-. cbn. eauto using ale_trans.
    + bd H. injection H as <-. cbn. eauto.
    + apply bind_Some in H as ([o1 k] & H1 & H). apply LC in H1.
      destruct k as [[]|].
      * destruct (o_ret o1); [injection H as <-; done|].
        apply bind_Some in H as (o2 & H2 & H). injection H as <-. cbn. eauto using ale_trans.
      * injection H as <-. done.
      * destruct (o_ret o1); [injection H as <-; done|].
        apply bind_Some in H as ([o2 k2] & H2 & H). injection H as <-. cbn.
        eauto using ale_trans, ale_stable.
    + apply bind_Some in H as (o1 & H1 & H). injection H as <-. cbn. eauto.
    + destruct fn; [|discriminate]. bd H. injection H as <-. cbn. eauto.
    + bd H. destruct (bool_of a0 p) as [[]|]; try discriminate; injection H as <-; cbn; eauto.
    + bd H. injection H as <-. cbn. eauto.
Qed.
End Mono.

(** ** Environments, related cell by cell *)
Definition rel_arr {A B} (R : A -> B -> Prop) (a : arr A) (b : arr B) : Prop :=
  forall i, option_Forall2 R (a !! i) (b !! i).
Definition rel_block {A B} (R : A -> B -> Prop) (a : gmap nat (arr A)) (b : gmap nat (arr B)) : Prop :=
  forall x, option_Forall2 (rel_arr R) (a !! x) (b !! x).
Definition rel_env {A B} (R : A -> B -> Prop) (a : env A) (b : env B) : Prop := Forall2 (rel_block R) a b.

Section Rel.
Context {A B : Type} (R : A -> B -> Prop).
Lemma rel_get E E' x : rel_env R E E' -> option_Forall2 (rel_arr R) (get x E) (get x E').
Proof.
  induction 1 as [|b b' r r' Hb _ IH]; cbn; [constructor|].
  destruct (Hb x) as [? ? H|]; [constructor; exact H|exact IH].
Qed.
Lemma rel_put E E' x a a' : rel_env R E E' -> rel_arr R a a' -> rel_env R (put x a E) (put x a' E').
Proof.
  intros H Ha. induction H as [|b b' r r' Hb Hr IH]; cbn; [constructor|].
  pose proof (Hb x) as Hx. destruct (b !! x), (b' !! x); inversion Hx; constructor; auto; clear Hx.
  intros z. destruct (decide (x = z)) as [->|].
  - rewrite !lookup_insert. constructor. exact Ha.
  - rewrite !lookup_insert_ne by done. apply Hb.
Qed.
Lemma rel_insert a a' i v v' : rel_arr R a a' -> R v v' -> rel_arr R (<[i := v]> a) (<[i := v']> a').
Proof.
  intros H Hv j. destruct (decide (i = j)) as [->|].
  - rewrite !lookup_insert. constructor. exact Hv.
  - rewrite !lookup_insert_ne by done. apply H.
Qed.
Lemma lookup_full {C} ds (v : C) i : full ds v !! i = if decide (i ∈ cells ds) then Some v else None.
Proof.
  unfold full. induction (cells ds) as [|j l IH]; cbn.
  - rewrite lookup_empty. destruct (decide (i ∈ [])) as [H|]; [by apply elem_of_nil in H|done].
  - destruct (decide (i = j)) as [->|Hne].
    + rewrite lookup_insert, decide_True; [done|left].
    + rewrite lookup_insert_ne by done. rewrite IH.
      destruct (decide (i ∈ l)), (decide (i ∈ j :: l)); auto; exfalso; set_solver.
Qed.
Lemma rel_full ds v v' : R v v' -> rel_arr R (full ds v) (full ds v').
Proof. intros H i. rewrite !lookup_full. destruct (decide _); constructor; exact H. Qed.
Lemma rel_declare E E' x a a' E1 : rel_env R E E' -> rel_arr R a a' -> declare x a E = Some E1 ->
  exists E1', declare x a' E' = Some E1' /\ rel_env R E1 E1'.
Proof.
  intros H Ha D. destruct H as [|b b' r r' Hb Hr]; cbn in *; [discriminate|].
  pose proof (Hb x) as Hx. destruct (b !! x), (b' !! x); inversion Hx; try discriminate.
  injection D as <-. eexists; split; [reflexivity|]. constructor; [|exact Hr].
  intros y. destruct (decide (x = y)) as [->|].
  - rewrite !lookup_insert. constructor. exact Ha.
  - rewrite !lookup_insert_ne by done. apply Hb.
Qed.
Lemma rel_bind_args xs vs ws : length xs = length vs -> Forall2 R vs ws -> rel_env R (bind_args xs vs) (bind_args xs ws).
Proof.
  intros L H. constructor; [|constructor]. revert xs L. induction H as [|v w vs ws Hv H IH]; intros [|x xs] L; cbn in *; try discriminate.
  - intros y. rewrite !lookup_empty. constructor.
  - intros y. destruct (decide (x = y)) as [->|].
    + rewrite !lookup_insert. constructor. intros i. unfold scalar.
      destruct (decide (i = [])) as [->|]; [rewrite !lookup_singleton; by constructor|].
      rewrite !lookup_singleton_ne by done. constructor.
    + rewrite !lookup_insert_ne by done. apply IH. lia.
Qed.
Lemma rel_arr_dom a b : rel_arr R a b -> dom a = dom b.
Proof.
  intros H. apply set_eq. intros i. rewrite !elem_of_dom. destruct (H i); split; intros [? ?]; eauto; discriminate.
Qed.
End Rel.

(** [up]: the second value is the first or is unknown *)
Definition up (e e' : aexpr) : Prop := e' = e \/ e' = NonQuadratic.
Lemma up_arr_refl a : rel_arr up a a.
Proof. intros i. destruct (a !! i); constructor. by left. Qed.
Lemma up_block_refl a : rel_block up a a.
Proof. intros i. destruct (a !! i); constructor. apply up_arr_refl. Qed.
Lemma up_refl E : rel_env up E E.
Proof. induction E; constructor; auto using up_block_refl. Qed.
Lemma up_arr_trans a b c : rel_arr up a b -> rel_arr up b c -> rel_arr up a c.
Proof.
  intros H1 H2 i. pose proof (H1 i) as X. pose proof (H2 i) as Y. destruct X as [? ? X|]; inversion Y as [? ? Z|]; subst; constructor.
  unfold up in *. destruct X, Z; subst; auto.
Qed.
Lemma up_block_trans a b c : rel_block up a b -> rel_block up b c -> rel_block up a c.
Proof.
  intros H1 H2 i. pose proof (H1 i) as X. pose proof (H2 i) as Y. destruct X as [? ? X|]; inversion Y as [? ? Z|]; subst; constructor.
  eauto using up_arr_trans.
Qed.
Lemma up_trans a b c : rel_env up a b -> rel_env up b c -> rel_env up a c.
Proof.
  intros H. revert c. induction H; intros c H2; inversion H2; subst; constructor; eauto using up_block_trans.
  apply IHForall2. assumption.
Qed.
Lemma up_put E x c c' : get x E = Some c -> rel_arr up c c' -> rel_env up E (put x c' E).
Proof.
  induction E as [|b r IH]; cbn; intros H Hc; [discriminate|]. destruct (b !! x) eqn:Ex.
  - injection H as ->. constructor; [|apply up_refl]. intros y. destruct (decide (x = y)) as [->|].
    + rewrite lookup_insert, Ex. constructor. exact Hc.
    + rewrite lookup_insert_ne by done. apply up_block_refl.
  - constructor; [apply up_block_refl|]. apply IH; assumption.
Qed.

(** the same, with possibly more variables in the innermost block *)
Definition block_ext (a b : gmap nat (arr aexpr)) : Prop :=
  forall x c, a !! x = Some c -> exists c', b !! x = Some c' /\ rel_arr up c c'.
Definition ext (E E' : env aexpr) : Prop :=
  match E, E' with
  | [], [] => True
  | b :: r, b' :: r' => block_ext b b' /\ rel_env up r r'
  | _, _ => False
  end.
Lemma ext_up E E' : rel_env up E E' -> ext E E'.
Proof.
  destruct 1 as [|b b' r r' H Hr]; cbn; [done|]. split; [|done]. intros x c Hx. pose proof (H x) as X.
  rewrite Hx in X. inversion X; subst. eauto.
Qed.
Lemma ext_refl E : ext E E.
Proof. apply ext_up, up_refl. Qed.
Lemma ext_trans a b c : ext a b -> ext b c -> ext a c.
Proof.
  destruct a, b, c; cbn; try tauto. intros [H1 H2] [H3 H4]. split; [|eauto using up_trans].
  intros x d Hd. destruct (H1 x d Hd) as (d1 & X & Y). destruct (H3 x d1 X) as (d2 & X2 & Y2). eauto using up_arr_trans.
Qed.
Lemma ext_declare E x a E1 : declare x a E = Some E1 -> ext E E1.
Proof.
  destruct E as [|b r]; cbn; [discriminate|]. destruct (b !! x) eqn:Ex; [discriminate|]. intros [= <-].
  split; [|apply up_refl]. intros y c Hc. destruct (decide (x = y)) as [->|]; [congruence|].
  rewrite lookup_insert_ne by done. eauto using up_arr_refl.
Qed.

Section Unknown.
Context (p : Z) (wire : nat -> list Z -> option nat) (F : funs).
Notation sexpr := (sexpr p wire F).
Notation sstmt := (sstmt p wire F).
(** Inside an unknown condition nothing is learnt: outer variables keep their value or become
    unknown, no constraint is added and only an unknown value is returned. *)
Definition vague (E : env aexpr) (o : outcome) : Prop :=
  o_cs o = [] /\ (o_ret o = None \/ o_ret o = Some NonQuadratic) /\ ext E (o_env o).
Lemma sseq_vague f E a l o : (forall E a s o, s ∈ l -> f E a s = Some o -> vague E o) ->
  sseq f E a l = Some o -> vague E o.
Proof.
  revert E a o. induction l as [|s l IH]; intros E a o Hf H; cbn in H.
  - injection H as <-. repeat split; auto using ext_refl.
  - apply bind_Some in H as (o1 & H1 & H). destruct (Hf E a s o1 ltac:(set_solver) H1) as (A1 & A2 & A3).
    destruct (o_ret o1) eqn:Er; [injection H as <-; repeat split; auto; rewrite Er; auto|].
    apply bind_Some in H as (o2 & H2 & H).
    destruct (IH (o_env o1) (o_an o1) o2 (fun E a s' o Hs => Hf E a s' o (elem_of_list_further _ _ _ Hs)) H2) as (B1 & B2 & B3).
    injection H as <-. repeat split; cbn; eauto using ext_trans. rewrite A1, B1. done.
Qed.
Definition nodecl_vague (E : env aexpr) (o : outcome) : Prop := vague E o /\ rel_env up E (o_env o).
Lemma scond_vague fe fs unk E a c t f o k :
  (forall E a o, fs true E a t = Some o -> nodecl_vague E o) ->
  (forall s E a o, f = Some s -> fs true E a s = Some o -> nodecl_vague E o) ->
  unk = true \/ k = None ->
  scond p fe fs unk E a c t f = Some (o, k) -> nodecl_vague E o.
Proof.
  intros Ht Hf Hu H. unfold scond in H. apply bind_Some in H as ([v a1] & Hc & H).
  destruct (bool_of v p) as [[]|].
  - apply bind_Some in H as (o1 & H1 & H). injection H as <- <-. destruct Hu as [->|]; [|discriminate]. eauto.
  - destruct f.
    + apply bind_Some in H as (o1 & H1 & H). injection H as <- <-. destruct Hu as [->|]; [|discriminate]. eauto.
    + injection H as <- <-. repeat split; cbn; auto using ext_refl, up_refl.
  - apply bind_Some in H as (o1 & H1 & H). destruct (Ht _ _ _ H1) as ((A1 & A2 & A3) & A4). destruct f.
    + apply bind_Some in H as (o2 & H2 & H). injection H as <- <-.
      destruct (Hf _ _ _ _ eq_refl H2) as ((B1 & B2 & B3) & B4).
      repeat split; cbn; eauto using ext_trans, up_trans; [by rewrite A1, B1|destruct (o_ret o1); auto].
    + injection H as <- <-. repeat split; auto.
Qed.
Lemma forallb_elem {A} (f : A -> bool) l x : forallb f l = true -> x ∈ l -> f x = true.
Proof. rewrite forallb_forall. intros H Hx. apply H. by apply elem_of_list_In. Qed.
Lemma vague_stmt Q n fn E a s o : all_stmt shaped Q s = true -> sstmt n fn true E a s = Some o ->
  vague E o /\ (declares s = false -> rel_env up E (o_env o)).
Proof.
  revert fn E a s o. induction n as [|n IH]; intros fn E a s o W H; [discriminate|].
  rewrite sstmt_S in H. cbv zeta in H. revert H. generalize (reached (sid s) a). clear a. intros a H.
  assert (LS : forall fn E a l o, forallb (all_stmt shaped Q) l = true ->
     sseq (sstmt n fn true) E a l = Some o -> vague E o).
  { intros fn' E' a' l o' Wl Hl. eapply sseq_vague; [|exact Hl]. intros E1 a1 s1 o1 Hs H1.
    eapply IH; [|exact H1]. eapply forallb_elem; eauto. }
  assert (LB : forall b fn, all_stmt shaped Q b = true -> declares b = false -> forall E a o,
     sstmt n fn true E a b = Some o -> nodecl_vague E o).
  { intros b fn' Wb Db E' a' o' Hb. destruct (IH _ _ _ _ _ Wb Hb). split; auto. }
  destruct s; cbn [all_stmt shaped] in W.
  - apply bind_Some in H as (o1 & H1 & H). injection H as <-. apply andb_prop in W as [_ W].
    destruct (LS _ _ _ _ _ W H1) as (A1 & A2 & A3). split; [repeat split; auto|cbn; discriminate].
  - bd H. destruct (access_of l); try discriminate. apply bind_Some in H as (E1 & D & H). injection H as <-.
    split; [repeat split; cbn; eauto using ext_declare|cbn; discriminate].
  - bd H. bd H. apply bind_Some in H as (c & Hc & H).
    assert (X : forall E1, rel_env up E E1 -> vague E (Out None true [] E1 a2) /\ (declares (SAssign id x idx e) = false -> rel_env up E E1)).
    { intros E1 HE. repeat split; cbn; auto using ext_up. }
    destruct (access_of l); try discriminate.
    + injection H as <-. apply X. apply (up_put _ _ c); [exact Hc|]. intros i. rewrite lookup_fmap.
      destruct (c !! i); constructor. by right.
    + apply bind_Some in H as (w & Hw & H). injection H as <-. apply X. apply (up_put _ _ c); [exact Hc|].
      intros i. destruct (decide (l0 = i)) as [->|].
      * rewrite lookup_insert, Hw. constructor. by right.
      * rewrite lookup_insert_ne by done. apply up_arr_refl.
  - bd H. bd H. apply bind_Some in H as (c & Hc & H).
    destruct (access_of l); try discriminate. cbv zeta in H. case_bool_decide as HD; [|discriminate].
    injection H as <-. assert (HE : rel_env up E (put x (full l0 NonQuadratic) E)).
    { apply (up_put _ _ c); [exact Hc|]. intros i. rewrite lookup_full.
      assert (QQ : i ∈ dom c <-> i ∈ dom (full l0 NonQuadratic)) by by rewrite HD.
      rewrite !elem_of_dom, lookup_full in QQ. destruct (c !! i) eqn:Ec, (decide (i ∈ cells l0)); try constructor.
      - by right.
      - destruct (proj1 QQ ltac:(eauto)) as [? ?]; discriminate.
      - destruct (proj2 QQ ltac:(eauto)) as [? ?]; discriminate. }
    repeat split; cbn; auto using ext_up.
  - bd H. bd H. destruct fn; [discriminate|]. destruct (access_of l); try discriminate.
    apply bind_Some in H as (k & _ & H). destruct eq; [discriminate|]. injection H as <-.
    repeat split; cbn; auto using ext_refl, up_refl.
  - rewrite orb_true_r in H. discriminate.
  - apply bind_Some in H as ([o1 k] & H1 & H). injection H as <-.
    apply andb_prop in W as [W1 W]. apply andb_prop in W1 as [W1 W2]. apply negb_true_iff in W1.
    apply andb_prop in W as [W W3]. apply andb_prop in W as [_ W].
    assert (X : nodecl_vague E o1).
    { eapply scond_vague; [| |left; reflexivity|exact H1].
      - apply LB; auto.
      - intros s0 E' a' o' ->. apply LB; [exact W3|]. by apply negb_true_iff. }
    destruct X; auto.
  - apply andb_prop in W as [W1 W]. apply negb_true_iff in W1. apply andb_prop in W as [W0 W].
    assert (X : forall E a o k, scond p (sexpr n E) (sstmt n fn) true E a c s None = Some (o, k) -> nodecl_vague E o).
    { intros E' a' o' k' H'. eapply scond_vague; [| |left; reflexivity|exact H'].
      - apply LB; auto.
      - intros ? ? ? ? HH; discriminate. }
    apply bind_Some in H as ([o1 k] & H1 & H). destruct (X _ _ _ _ H1) as ((A1 & A2 & A3) & A4).
    destruct k as [[]|].
    + destruct (o_ret o1) eqn:Er; [injection H as <-; repeat split; auto; rewrite Er; auto|].
      apply bind_Some in H as (o2 & H2 & H). injection H as <-.
      destruct (IH _ _ _ (SWhile id c s) _ ltac:(cbn; rewrite W1, W; by rewrite W0) H2) as ((B1 & B2 & B3) & B4).
      specialize (B4 eq_refl). repeat split; cbn; eauto using ext_trans, up_trans. by rewrite A1, B1.
    + injection H as <-. repeat split; auto.
    + destruct (o_ret o1) eqn:Er; [injection H as <-; repeat split; auto; rewrite Er; auto|].
      apply bind_Some in H as ([o2 k2] & H2 & H). injection H as <-.
      destruct (X _ _ _ _ H2) as ((B1 & B2 & B3) & B4).
      repeat split; cbn; eauto using ext_trans, up_trans. by rewrite A1, B1.
  - apply bind_Some in H as (o1 & H1 & H). injection H as <-.
    destruct (LS _ _ _ _ _ W H1) as (A1 & A2 & A3).
    assert (QQ : rel_env up E (tail (o_env o1))).
    { destruct (o_env o1) as [|b r]; cbn in *; [contradiction|]. tauto. }
    repeat split; cbn; auto using ext_up.
  - destruct fn; [|discriminate]. bd H. injection H as <-. repeat split; cbn; auto using ext_refl, up_refl.
  - bd H. destruct (bool_of a0 p) as [[]|]; try discriminate; injection H as <-;
      repeat split; cbn; auto using ext_refl, up_refl.
  - bd H. injection H as <-. repeat split; cbn; auto using ext_refl, up_refl.
Qed.
End Unknown.

(** ** Events of functions *)
Lemma equations_app a b : equations (a ++ b) = equations a ++ equations b.
Proof. apply omap_app. Qed.
Lemma ev_all_noeq (E : expr -> Z -> list event -> Prop) l vs tr : (forall e v t, E e v t -> equations t = []) -> ev_all E l vs tr -> equations tr = [].
Proof.
  intros HE. revert vs tr. induction l as [|e l IH]; intros vs tr H; cbn in H.
  - destruct H as [_ ->]. done.
  - destruct H as (v & ws & t1 & t2 & H1 & H2 & -> & ->). rewrite equations_app.
    rewrite (HE _ _ _ H1), (IH _ _ H2). done.
Qed.
Section NoEq.
Context (p : Z) (wire : nat -> list Z -> option nat) (F : funs) (M : mode).
Hypothesis HF : all_funs (all_stmt no_signal always) F.
Notation ev := (ev p wire F M).
Notation run := (run p wire F M).
Notation run_seq := (run_seq M).
Lemma run_seq_noeq (R : env Z -> st M -> stmt -> list event -> option Z -> env Z -> st M -> Prop) E σ l tr r E' σ' :
  (forall E σ s tr r E' σ', s ∈ l -> R E σ s tr r E' σ' -> equations tr = []) ->
  run_seq R E σ l tr r E' σ' -> equations tr = [].
Proof.
  revert E σ tr r E' σ'. induction l as [|s l IH]; intros E σ tr r E' σ' HR H; cbn in H.
  - destruct H as (-> & _). done.
  - destruct H as (t1 & r1 & E1 & σ1 & H1 & H). pose proof (HR _ _ _ _ _ _ _ (elem_of_list_here _ _) H1) as Q.
    destruct r1; [destruct H as (-> & _); done|]. destruct H as (t2 & H2 & ->). rewrite equations_app, Q. cbn.
    eapply IH; [|exact H2]. intros; eapply HR; [|eassumption]. by apply elem_of_list_further.
Qed.
Lemma noeq n :
  (forall E σ e v tr, ev n E σ e v tr -> equations tr = []) /\
  (forall E σ s tr r E' σ', all_stmt no_signal always s = true -> run n E σ s tr r E' σ' -> equations tr = []).
Proof.
  induction n as [|n [IHe IHs]]; [split; intros; contradiction|].
  assert (LA : forall E σ l vs tr, ev_all (ev n E σ) l vs tr -> equations tr = []).
  { intros E σ l vs tr H. eapply ev_all_noeq; [|exact H]. intros; eauto. }
  assert (LS : forall E σ l tr r E' σ', forallb (all_stmt no_signal always) l = true ->
     run_seq (run n) E σ l tr r E' σ' -> equations tr = []).
  { intros E σ l tr r E' σ' W H. eapply run_seq_noeq; [|exact H]. intros; eapply IHs; [|eassumption].
    eapply forallb_elem; eauto. }
  split.
  - intros E σ e v tr H. rewrite ev_S in H. destruct e.
    + destruct H as [_ ->]. done.
    + destruct H as (? & ? & H & _). eauto.
    + destruct H as (? & ? & H & _). eauto.
    + destruct H as (? & ? & ? & ? & H1 & H2 & _ & ->). rewrite equations_app, (IHe _ _ _ _ _ H1), (IHe _ _ _ _ _ H2). done.
    + destruct H as (? & H & _). eauto.
    + destruct H as (? & ? & ? & H1 & H2 & ->). rewrite equations_app, (IHe _ _ _ _ _ H1), (IHe _ _ _ _ _ H2). done.
    + destruct H as (xs & body & vs & t1 & t2 & E' & Hf & H1 & _ & H2 & ->).
      rewrite equations_app, (LA _ _ _ _ _ H1), (LS _ _ _ _ _ _ _ (HF _ _ _ Hf) H2). done.
  - intros E σ s tr r E' σ' W H. rewrite run_S in H. destruct s; cbn [all_stmt no_signal andb] in W; try discriminate.
    + eauto.
    + destruct H as (? & H & _). eauto.
    + destruct H as (? & ? & ? & ? & ? & H1 & H2 & _ & _ & _ & -> & _).
      rewrite equations_app, (LA _ _ _ _ _ H1), (IHe _ _ _ _ _ H2). done.
    + destruct H as (? & ? & ? & ? & ? & H1 & H2 & _ & _ & _ & -> & _).
      rewrite equations_app, (LA _ _ _ _ _ H1), (IHe _ _ _ _ _ H2). done.
    + destruct H as (b & t1 & t2 & H1 & -> & H). rewrite equations_app, (IHe _ _ _ _ _ H1). cbn.
      apply andb_prop in W as [W W2]. apply andb_prop in W as [_ W1].
      destruct (b =? 0); [destruct f; [eauto|destruct H as (-> & _); done]|eauto].
    + destruct H as (b & t1 & t2 & H1 & -> & H). rewrite equations_app, (IHe _ _ _ _ _ H1). cbn.
      pose proof W as W0. apply andb_prop in W as [_ W].
      destruct (b =? 0); [destruct H as (-> & _); done|]. destruct H as (t3 & r1 & E1 & σ1 & H2 & H).
      destruct r1; [destruct H as (-> & _); eauto|]. destruct H as (t4 & H3 & ->).
      rewrite equations_app, (IHs _ _ _ _ _ _ _ W H2), (IHs _ _ (SWhile id c s) _ _ _ _ W0 H3). done.
    + destruct H as (E1 & H & _). eauto.
    + destruct H as (? & H & _). eauto.
    + destruct H as (? & ? & H & -> & _). rewrite equations_app, (IHe _ _ _ _ _ H). done.
    + destruct H as (? & ? & H & -> & _). rewrite equations_app, (LA _ _ _ _ _ H). done.
Qed.
End NoEq.

(** ** Soundness of the symbolic values, for any reading [I] of symbolic values that respects the
    operators, and any reading [K] of constraints. *)
Section Sound.
Context (p : Z) (wire : nat -> list Z -> option nat) (F : funs) (M : mode).
Context (I : aexpr -> Z -> Prop) (K : constraint -> Z -> Z -> Prop).
Hypothesis Hp : 2 < p.
Hypothesis I_nonq : forall v, I NonQuadratic v.
Hypothesis I_num : forall z, 0 <= z < p -> I (Number z) z.
Hypothesis I_inv : forall z v, I (Number z) v -> v = z /\ 0 <= z < p.
Hypothesis I_infix : forall op l r e x y v, I l x -> I r y -> execute_infix_op op l r p = Ok e ->
  infix_den p op x y v -> I e v.
Hypothesis I_prefix : forall op e x v, I e x -> prefix_den p op x v -> I (execute_prefix_op op e p) v.
Hypothesis I_sig : forall σ k v, rd M σ k v -> I (Signal (S k)) v.
Hypothesis I_K : forall l r e c x y, I l x -> I r y -> asub l r p = Ok e -> to_constraint e p = Some c -> K c x y.
Hypothesis HF : good_funs p F.
Notation sexpr := (sexpr p wire F).
Notation sstmt := (sstmt p wire F).
Notation ev := (ev p wire F M).
Notation run := (run p wire F M).
Notation run_seq := (run_seq M).

Lemma I_bool v x b : I v x -> bool_of v p = Some b -> (x =? 0) = negb b.
Proof.
  intros H Hb. destruct v; try discriminate. injection Hb as <-. apply I_inv in H as [-> H].
  rewrite as_bool_spec by lia. rewrite negb_involutive, Z.mod_small by lia. done.
Qed.
Lemma I_access vs xs l : Forall2 I vs xs -> access_of vs = AccKnown l -> xs = l.
Proof.
  intros H. revert l. induction H as [|v x vs xs Hv H IH]; intros l Ha; cbn in Ha.
  - injection Ha as <-. done.
  - destruct v; try (destruct (access_of vs); discriminate).
    destruct (_ && _); [|discriminate]. destruct (access_of vs); try discriminate. injection Ha as <-.
    f_equal; [|auto]. apply I_inv in Hv. tauto.
Qed.

Lemma sall_sound n (Pe : forall E a e v a', sexpr n E a e = Some (v, a') -> a_stable a' = true ->
    all_expr (reduced p) e = true -> forall C, rel_env I E C -> forall m σ x tr, ev m C σ e x tr -> I v x) :
  forall E a l vs a', sall (sexpr n E) a l = Some (vs, a') -> a_stable a' = true ->
    forallb (all_expr (reduced p)) l = true -> forall C, rel_env I E C -> forall m σ xs tr,
    ev_all (ev m C σ) l xs tr -> Forall2 I vs xs.
Proof.
  intros E a l. revert a. induction l as [|e l IH]; intros a vs a' H S W C HC m σ xs tr He; cbn in H, He.
  - injection H as <- <-. destruct He as [-> _]. constructor.
  - apply bind_Some in H as ([v a1] & H1 & H). apply bind_Some in H as ([ws a2] & H2 & H). injection H as <- <-.
    destruct He as (x & ys & t1 & t2 & E1 & E2 & -> & ->). apply andb_prop in W as [W1 W2].
    constructor; [|eauto]. eapply Pe; eauto.
    eapply (sall_le (sexpr n E)); [|exact H2|exact S]. intros; eapply exec_le; eauto.
Qed.

Definition post (o : outcome) (tr : list event) (r : option Z) (C' : env Z) : Prop :=
  match o_ret o with
  | None => r = None /\ rel_env I (o_env o) C' /\ Forall2 (fun c lr => K c lr.1 lr.2) (o_cs o) (equations tr)
  | Some NonQuadratic => True
  | Some v => exists x, r = Some x /\ I v x
  end.

Lemma sseq_sound (f : env aexpr -> analysis -> stmt -> option outcome) (R : env Z -> st M -> stmt -> list event -> option Z -> env Z -> st M -> Prop) l :
  (forall E a s o, f E a s = Some o -> ale a (o_an o)) ->
  (forall s, s ∈ l -> forall E a o, f E a s = Some o -> a_stable (o_an o) = true -> forall C, rel_env I E C ->
     forall σ tr r C' σ', R C σ s tr r C' σ' -> post o tr r C') ->
  forall E a o, sseq f E a l = Some o -> a_stable (o_an o) = true -> forall C, rel_env I E C ->
     forall σ tr r C' σ', run_seq R C σ l tr r C' σ' -> post o tr r C'.
Proof.
  intros Hle. induction l as [|s l IH]; intros Hf E a o H S C HC σ tr r C' σ' HR; cbn in H, HR.
  - injection H as <-. destruct HR as (-> & -> & -> & ->). repeat split; cbn; auto.
  - apply bind_Some in H as (o1 & H1 & H). destruct HR as (t1 & r1 & C1 & σ1 & R1 & HR).
    assert (X : a_stable (o_an o1) = true -> post o1 t1 r1 C1).
    { intros. eapply Hf; eauto. left. }
    destruct (o_ret o1) as [v|] eqn:Er.
    + injection H as <-. specialize (X S). unfold post in *. rewrite Er in *. destruct v; auto.
      all: destruct X as (x & -> & X); destruct HR as (-> & -> & -> & ->); eauto.
    + apply bind_Some in H as (o2 & H2 & H). injection H as <-.
      specialize (X ltac:(eapply sseq_le; [|exact H2|exact S]; eauto)).
      unfold post in X. rewrite Er in X. destruct X as (-> & XE & XK). destruct HR as (t2 & R2 & ->).
      pose proof (IH ltac:(intros s' Hs; apply Hf; by right) _ _ _ H2 S _ XE _ _ _ _ _ R2) as Y.
      unfold post in *. cbn. destruct (o_ret o2) as [v|]; [exact Y|]. destruct Y as (-> & YE & YK).
      repeat split; auto. rewrite equations_app. by apply Forall2_app.
Qed.

Lemma rel_up E E' C : rel_env I E C -> rel_env up E E' -> rel_env I E' C.
Proof.
  intros H. revert E'. induction H as [|b d E C Hb _ IH]; intros E' HU; inversion HU as [|? b' ? E1 Hb' HE]; subst; constructor; [|apply IH; exact HE].
  intros x. pose proof (Hb x) as X. pose proof (Hb' x) as Y. destruct X as [a c X|]; inversion Y as [? ? Z|]; subst; constructor.
  intros i. pose proof (X i) as X'. pose proof (Z i) as Z'. destruct X' as [e v X'|]; inversion Z' as [? ? W|]; subst; constructor.
  destruct W as [->| ->]; auto.
Qed.

Definition Pe (n : nat) : Prop := forall E a e v a', sexpr n E a e = Some (v, a') -> a_stable a' = true ->
  all_expr (reduced p) e = true -> forall C, rel_env I E C -> forall m σ x tr, ev m C σ e x tr -> I v x.
Definition Ps (n : nat) : Prop := forall fn unk E a s o, sstmt n fn unk E a s = Some o ->
  a_stable (o_an o) = true -> well_formed p s = true -> forall C, rel_env I E C ->
  forall m σ tr r C' σ', run m C σ s tr r C' σ' -> post o tr r C'.

Lemma Ps_seq n fn unk : Ps n -> forall E a l o, sseq (sstmt n fn unk) E a l = Some o ->
  a_stable (o_an o) = true -> forallb (well_formed p) l = true -> forall C, rel_env I E C ->
  forall m σ tr r C' σ', run_seq (run m) C σ l tr r C' σ' -> post o tr r C'.
Proof.
  intros HP E a l o H S W C HC m σ tr r C' σ' HR. eapply sseq_sound; try eassumption.
  - intros; eapply exec_le; eauto.
  - intros s Hs E1 a1 o1 H1 S1 C1 HC1 σ1 t1 r1 C1' σ1' R1.
    eapply HP; eauto. eapply forallb_elem; eauto.
Qed.

Lemma stable_le a a' : ale a a' -> a_stable a' = true -> a_stable a = true.
Proof. intros (_ & _ & _ & H). exact H. Qed.

Lemma post_trace o t1 t2 r C' : equations t1 = [] -> post o t2 r C' -> post o (t1 ++ t2) r C'.
Proof. intros H. unfold post. rewrite equations_app, H. done. Qed.

Lemma scond_sound n fn unk E a c t f o k : Pe n -> Ps n ->
  scond p (sexpr n E) (sstmt n fn) unk E a c t f = Some (o, k) -> a_stable (o_an o) = true ->
  all_expr (reduced p) c = true -> well_formed p t = true -> declares t = false ->
  (forall s, f = Some s -> well_formed p s = true /\ declares s = false) ->
  forall C, rel_env I E C -> forall m σ b t1 t2 r C' σ', ev m C σ c b t1 ->
  (if b =? 0 then match f with Some s => run m C σ s t2 r C' σ' | None => t2 = [] /\ r = None /\ C' = C end
   else run m C σ t t2 r C' σ') ->
  post o t2 r C' /\
  match k with Some b' => (b =? 0) = negb b' | None => o_cs o = [] /\ rel_env up E (o_env o) end.
Proof.
  intros He Hs H S Wc Wt Dt Wf C HC m σ b t1 t2 r C' σ' Hev HR.
  pose proof (fun a e v a' => proj1 (exec_le p wire F n) E a e v a') as LE.
  pose proof (fun unk E a s o => proj2 (exec_le p wire F n) fn unk E a s o) as LS.
  assert (V : forall s E a o, well_formed p s = true -> declares s = false ->
     sstmt n fn true E a s = Some o -> nodecl_vague E o).
  { intros s0 E0 a0 o0 W0 D0 H0. destruct (vague_stmt _ _ _ _ _ _ _ _ _ _ W0 H0). split; auto. }
  unfold scond in H. apply bind_Some in H as ([v a1] & Hc & H).
  destruct (bool_of v p) as [b'|] eqn:Eb.
  - assert (Sc : a_stable a1 = true).
    { destruct b'.
      - apply bind_Some in H as (o1 & H1 & H). injection H as <- <-. eapply stable_le; eauto.
      - destruct f; [apply bind_Some in H as (o1 & H1 & H)|]; injection H as <- <-; [eapply stable_le; eauto|done]. }
    pose proof (He _ _ _ _ _ Hc Sc Wc _ HC _ _ _ _ Hev) as Iv. pose proof (I_bool _ _ _ Iv Eb) as Bv.
    rewrite Bv in HR. destruct b'; cbn [negb] in HR.
    + apply bind_Some in H as (o1 & H1 & H). injection H as <- <-. split; [|exact Bv]. eapply Hs; eauto.
    + destruct f as [s|].
      * apply bind_Some in H as (o1 & H1 & H). injection H as <- <-. split; [|exact Bv].
        destruct (Wf s eq_refl). eapply Hs; eauto.
      * injection H as <- <-. split; [|exact Bv]. destruct HR as (-> & -> & ->). repeat split; cbn; auto.
  - apply bind_Some in H as (o1 & H1 & H).
    destruct (V _ _ _ _ Wt Dt H1) as ((A1 & A2 & A3) & A4). destruct f as [s|].
    + apply bind_Some in H as (o2 & H2 & H). injection H as <- <-. cbn in S.
      destruct (Wf s eq_refl) as [Ws Ds]. destruct (V _ _ _ _ Ws Ds H2) as ((B1 & B2 & B3) & B4).
      split; [|cbn; rewrite A1, B1; split; [done|]; eauto using up_trans].
      assert (S1 : a_stable (o_an o1) = true) by (eapply stable_le; eauto).
      unfold post. cbn. destruct A2 as [A2|A2]; rewrite A2; [|done]. destruct B2 as [B2|B2]; rewrite B2; [|done].
      destruct (b =? 0).
      * pose proof (Hs _ _ _ _ _ _ H2 S Ws C (rel_up _ _ _ HC A4) _ _ _ _ _ _ HR) as X.
        unfold post in X. rewrite B2, B1 in X. rewrite A1, B1. exact X.
      * pose proof (Hs _ _ _ _ _ _ H1 S1 Wt C HC _ _ _ _ _ _ HR) as X.
        unfold post in X. rewrite A2, A1 in X. rewrite A1, B1. destruct X as (-> & X & Y).
        repeat split; auto. eapply rel_up; eauto.
    + injection H as <- <-. split; [|auto]. destruct (b =? 0); [|eapply Hs; eauto].
      destruct HR as (-> & -> & ->). unfold post. destruct A2 as [A2|A2]; rewrite A2; [|done].
      rewrite A1. repeat split; cbn; auto. eapply rel_up; eauto.
Qed.

Lemma sound n : Pe n /\ Ps n.
Proof.
  induction n as [|n [IHe IHs]]; [split; intros ?; intros; discriminate|].
  pose proof (sall_sound n IHe) as LA.
  destruct HF as [HF1 HF2].
  assert (LEA : forall E a l vs a', sall (sexpr n E) a l = Some (vs, a') -> ale a a').
  { intros E a l vs a' H. eapply sall_le; [|exact H]. intros; eapply exec_le; eauto. }
  pose proof (fun E a e v a' => proj1 (exec_le p wire F n) E a e v a') as LE.
  pose proof (fun fn unk E a s o => proj2 (exec_le p wire F n) fn unk E a s o) as LS.
  assert (NA : forall m C σ l vs tr, ev_all (ev m C σ) l vs tr -> equations tr = []).
  { intros m C σ l vs tr H. eapply ev_all_noeq; [|exact H]. intros e0 v0 t0 H0. exact (proj1 (noeq p wire F M HF2 m) _ _ _ _ _ H0). }
  pose proof (fun m E σ e v tr => proj1 (noeq p wire F M HF2 m) E σ e v tr) as NE.
  split.
  - intros E a e v a' H S W C HC m σ x tr Hev. destruct m as [|m]; [contradiction|].
    rewrite sexpr_S in H. rewrite ev_S in Hev. destruct e; cbn [all_expr] in W; apply andb_prop in W as [W0 W].
    + injection H as <- <-. destruct Hev as [-> _]. cbn in W0. rewrite Z.mod_small by lia. apply I_num. lia.
    + apply bind_Some in H as ([vs a1] & H1 & H). destruct Hev as (is & c & E1 & E2 & E3).
      destruct (access_of vs) as [| |l] eqn:Ea; [discriminate|injection H as <- <-; apply I_nonq|].
      apply bind_Some in H as (c0 & Hc & H). apply bind_Some in H as (v0 & Hv & H). injection H as <- <-.
      pose proof (LA _ _ _ _ _ H1 S W _ HC _ _ _ _ E1) as HA. pose proof (I_access _ _ _ HA Ea) as ->.
      pose proof (rel_get _ _ _ x0 HC) as G. rewrite Hc, E2 in G. inversion G as [? ? G1|]; subst.
      pose proof (G1 l) as G2. rewrite Hv, E3 in G2. inversion G2; subst. done.
    + apply bind_Some in H as ([vs a1] & H1 & H). destruct Hev as (is & k & E1 & E2 & E3).
      destruct (access_of vs) as [| |l] eqn:Ea; [discriminate|injection H as <- <-; apply I_nonq|].
      apply bind_Some in H as (k0 & Hk & H). injection H as <- <-.
      pose proof (LA _ _ _ _ _ H1 S W _ HC _ _ _ _ E1) as HA. pose proof (I_access _ _ _ HA Ea) as ->.
      assert (k0 = k) as -> by congruence. eauto.
    + apply bind_Some in H as ([v1 a1] & H1 & H). apply bind_Some in H as ([v2 a2] & H2 & H).
      apply bind_Some in H as (v3 & H3 & H). injection H as <- <-. cbn in S. apply andb_prop in W as [W1 W2].
      destruct Hev as (x1 & x2 & t1 & t2 & E1 & E2 & E3 & ->).
      destruct (execute_infix_op op v1 v2 p) eqn:Eo; try discriminate. injection H3 as ->.
      eapply I_infix; [| |exact Eo|exact E3].
      * eapply IHe; eauto. eapply stable_le; [|exact S]. eauto.
      * eapply IHe; eauto.
    + apply bind_Some in H as ([v1 a1] & H1 & H). injection H as <- <-. cbn in S. destruct Hev as (x1 & E1 & E2).
      eapply I_prefix; [|exact E2]. eapply IHe; eauto.
    + apply bind_Some in H as ([v1 a1] & H1 & H). apply andb_prop in W as [W W3]. apply andb_prop in W as [W1 W2].
      destruct Hev as (b & t1 & t2 & E1 & E2 & ->).
      destruct (bool_of v1 p) as [b'|] eqn:Eb; [|injection H as <- <-; apply I_nonq].
      apply bind_Some in H as ([v2 a2] & H2 & H). injection H as <- <-. cbn in S.
      assert (Bv : (b =? 0) = negb b').
      { eapply I_bool; [|exact Eb]. eapply IHe; eauto. eapply stable_le; [|exact S]. eauto. }
      rewrite Bv in E2. destruct b'; cbn in E2; eapply IHe; eauto.
    + apply bind_Some in H as ([vs a1] & H1 & H). apply bind_Some in H as ([xs body] & H2 & H).
      case_bool_decide as HL; [|discriminate]. apply bind_Some in H as (o & Ho & H).
      apply bind_Some in H as (v0 & Hv & H). injection H as <- <-.
      destruct Hev as (xs' & body' & ws & t1 & t2 & E' & F1 & E1 & E2 & E3 & ->).
      rewrite H2 in F1. injection F1 as <- <-.
      assert (So : a_stable (o_an o) = true) by (destruct (o_simp o); exact S).
      assert (S1 : a_stable a1 = true).
      { eapply stable_le; [|exact So]. eapply sseq_le; [|exact Ho]. intros; eapply LS; eauto. }
      pose proof (LA _ _ _ _ _ H1 S1 W _ HC _ _ _ _ E1) as HA.
      pose proof (Ps_seq n true false IHs _ _ _ _ Ho So (HF1 _ _ _ H2) _ (rel_bind_args I xs vs ws HL HA) _ _ _ _ _ _ E3) as P.
      unfold post in P. rewrite Hv in P. destruct v0; try apply I_nonq; destruct P as (y & [= ->] & P); exact P.
  - intros fn unk E a s o H S W C HC m σ tr r C' σ' HR. destruct m as [|m]; [contradiction|].
    rewrite sstmt_S in H. rewrite run_S in HR. cbv zeta in H. revert H. generalize (reached (sid s) a). clear a. intros a H.
    unfold well_formed in W. destruct s; cbn [all_stmt] in W; apply andb_prop in W as [W0 W].
    + apply bind_Some in H as (o1 & H1 & H). injection H as <-.
      exact (Ps_seq n fn unk IHs _ _ _ _ H1 S W _ HC _ _ _ _ _ _ HR).
    + apply bind_Some in H as ([vs a1] & H1 & H). destruct (access_of vs) as [| |l] eqn:Ea; try discriminate.
      apply bind_Some in H as (E1 & D & H). injection H as <-. destruct HR as (ds & E2 & D' & -> & ->).
      pose proof (LA _ _ _ _ _ H1 S W _ HC _ _ _ _ E2) as HA. pose proof (I_access _ _ _ HA Ea) as ->.
      destruct (rel_declare I E C x _ (full l 0) _ HC (rel_full I l _ _ (I_nonq 0)) D) as (C1 & D1 & HC1).
      rewrite D' in D1. injection D1 as ->. repeat split; cbn; auto. rewrite (NA _ _ _ _ _ _ E2). constructor.
    + apply bind_Some in H as ([vs a1] & H1 & H). apply bind_Some in H as ([v a2] & H2 & H).
      apply bind_Some in H as (c & Hc & H). apply andb_prop in W as [W1 W2].
      destruct HR as (is & y & d & t1 & t2 & E1 & E2 & G & [z Gz] & -> & -> & -> & ->).
      assert (S2 : a_stable a2 = true).
      { destruct (access_of vs); try discriminate; [injection H as <-; exact S|].
        apply bind_Some in H as (w & _ & H). injection H as <-. exact S. }
      pose proof (rel_get _ _ _ x HC) as Gx. rewrite Hc, G in Gx. inversion Gx as [? ? Gr|]; subst.
      pose proof (LA _ _ _ _ _ H1 ltac:(eapply stable_le; [eauto|exact S2]) W1 _ HC _ _ _ _ E1) as HA.
      pose proof (IHe _ _ _ _ _ H2 S2 W2 _ HC _ _ _ _ E2) as HI.
      assert (EQ : equations (t1 ++ t2) = []) by (rewrite equations_app, (NA _ _ _ _ _ _ E1), (NE _ _ _ _ _ _ E2); done).
      destruct (access_of vs) as [| |l] eqn:Ea; [discriminate| |].
      * injection H as <-. repeat split; cbn; [|rewrite EQ; constructor]. apply rel_put; [exact HC|].
        intros i. rewrite lookup_fmap. destruct (decide (is = i)) as [->|].
        -- rewrite lookup_insert. pose proof (Gr i) as Gi. rewrite Gz in Gi. inversion Gi; subst. cbn. constructor. apply I_nonq.
        -- rewrite lookup_insert_ne by done. destruct (Gr i); cbn; constructor. apply I_nonq.
      * apply bind_Some in H as (w & Hw & H). injection H as <-. pose proof (I_access _ _ _ HA Ea) as ->.
        repeat split; cbn; [|rewrite EQ; constructor]. apply rel_put; [exact HC|]. apply rel_insert; [exact Gr|].
        destruct unk; auto.
    + apply bind_Some in H as ([vs a1] & H1 & H). apply bind_Some in H as ([v a2] & H2 & H).
      apply bind_Some in H as (c & Hc & H). apply andb_prop in W as [W1 W2].
      destruct HR as (ds & y & d & t1 & t2 & E1 & E2 & G & Gd & -> & -> & -> & ->).
      destruct (access_of vs) as [| |l] eqn:Ea; try discriminate. cbv zeta in H.
      case_bool_decide; [|discriminate]. injection H as <-. cbn in S.
      pose proof (LA _ _ _ _ _ H1 ltac:(eapply stable_le; [eauto|exact S]) W1 _ HC _ _ _ _ E1) as HA.
      pose proof (IHe _ _ _ _ _ H2 S W2 _ HC _ _ _ _ E2) as HI.
      pose proof (I_access _ _ _ HA Ea) as ->.
      repeat split; cbn; [|rewrite equations_app, (NA _ _ _ _ _ _ E1), (NE _ _ _ _ _ _ E2); constructor].
      apply rel_put; [exact HC|]. apply rel_full. destruct unk; auto.
    + apply bind_Some in H as ([vs a1] & H1 & H). apply bind_Some in H as ([v a2] & H2 & H).
      destruct fn; [discriminate|]. apply andb_prop in W as [W1 W2].
      destruct (access_of vs) as [| |l] eqn:Ea; try discriminate.
      apply bind_Some in H as (k & Hk & H).
      destruct HR as (is & y & k' & t1 & t2 & E1 & E2 & G & Gw & -> & -> & HT).
      assert (S2 : a_stable a2 = true).
      { destruct eq; [|injection H as <-; exact S]. destruct unk; [discriminate|].
        apply bind_Some in H as (d & _ & H). apply bind_Some in H as (c & _ & H). injection H as <-. exact S. }
      pose proof (LA _ _ _ _ _ H1 ltac:(eapply stable_le; [eauto|exact S2]) W1 _ HC _ _ _ _ E1) as HA.
      pose proof (IHe _ _ _ _ _ H2 S2 W2 _ HC _ _ _ _ E2) as HI.
      pose proof (I_access _ _ _ HA Ea) as ->. assert (k' = k) as -> by congruence.
      destruct eq.
      * destruct unk; [discriminate|]. apply bind_Some in H as (d & Hd & H). apply bind_Some in H as (c & Hc & H).
        injection H as <-. destruct HT as (z & Hz & ->). repeat split; cbn; [exact HC|].
        rewrite !equations_app, (NA _ _ _ _ _ _ E1), (NE _ _ _ _ _ _ E2). cbn. constructor; [|constructor]. cbn.
        destruct (asub (Signal _) v p) eqn:Es; try discriminate. injection Hd as ->. eapply I_K; [eapply I_sig; exact Hz|exact HI|exact Es|exact Hc].
      * injection H as <-. subst tr. repeat split; cbn; [exact HC|].
        rewrite !equations_app, (NA _ _ _ _ _ _ E1), (NE _ _ _ _ _ _ E2). constructor.
    + destruct (fn || unk); [discriminate|]. apply bind_Some in H as ([x a1] & H1 & H).
      apply bind_Some in H as ([y a2] & H2 & H). apply bind_Some in H as (d & Hd & H).
      apply bind_Some in H as (c & Hc & H). injection H as <-. cbn in S. apply andb_prop in W as [W1 W2].
      destruct HR as (x' & y' & t1 & t2 & E1 & E2 & -> & -> & -> & ->).
      repeat split; cbn; [exact HC|]. rewrite !equations_app, (NE _ _ _ _ _ _ E1), (NE _ _ _ _ _ _ E2). cbn.
      constructor; [|constructor]. cbn. destruct (asub x y p) eqn:Es; try discriminate. injection Hd as ->.
      eapply I_K; [| |exact Es|exact Hc]; eapply IHe; eauto. eapply stable_le; [|exact S]. eauto.
    + apply bind_Some in H as ([o1 k] & H1 & H). injection H as <-.
      destruct HR as (b & t1 & t2 & E1 & -> & HR). cbn [shaped] in W0. apply andb_prop in W0 as [D1 D2].
      apply andb_prop in W as [W W3]. apply andb_prop in W as [W1 W2]. apply negb_true_iff in D1.
      apply post_trace; [eapply NE; eauto|].
      eapply (proj1 (scond_sound n fn unk E a c s f o1 k IHe IHs H1 S W1 W2 D1
        ltac:(intros ? ->; split; [exact W3|by apply negb_true_iff]) C HC m σ b t1 t2 r C' σ' E1
        ltac:(destruct (b =? 0); [destruct f; [exact HR|tauto]|exact HR]))).
    + pose proof W0 as D0. cbn [shaped] in W0. apply andb_prop in W as [W1 W2]. apply negb_true_iff in W0.
      assert (SC : forall unk E a o k C m σ b t1 t2 r C' σ',
        scond p (sexpr n E) (sstmt n fn) unk E a c s None = Some (o, k) -> a_stable (o_an o) = true ->
        rel_env I E C -> ev m C σ c b t1 ->
        (if b =? 0 then t2 = [] /\ r = None /\ C' = C else run m C σ s t2 r C' σ') ->
        post o t2 r C' /\ match k with Some b' => (b =? 0) = negb b' | None => o_cs o = [] /\ rel_env up E (o_env o) end).
      { intros. eapply (scond_sound n fn); eauto. intros ? ?; discriminate. }
      apply bind_Some in H as ([o1 k] & H1 & H).
      assert (S1 : a_stable (o_an o1) = true).
      { destruct k as [[]|], (o_ret o1); try (injection H as <-; exact S).
        - apply bind_Some in H as (o2 & H2 & H). injection H as <-. cbn in S. eapply stable_le; [|exact S]. eapply LS; eauto.
        - apply bind_Some in H as ([o2 k2] & H2 & H). injection H as <-. cbn in S. apply andb_prop in S as [S _].
          eapply stable_le; [|exact S]. eapply scond_le; [| |exact H2]; intros; [eapply LE; eauto|eapply LS; eauto]. }
      destruct k as [[]|].
      * (* the condition is known and true *)
        destruct HR as (b & t1 & t2 & E1 & -> & HR). apply post_trace; [eapply NE; eauto|].
        assert (Bv : (b =? 0) = false).
        { destruct (b =? 0) eqn:Eb; [|done]. eapply (SC _ _ _ _ _ _ _ _ _ _ [] None C σ) in H1; eauto.
          - rewrite Eb in H1. destruct H1. discriminate.
          - rewrite Eb. auto. }
        rewrite Bv in HR. destruct HR as (t3 & r1 & C1 & σ1 & R1 & HR).
        assert (P1 : post o1 t3 r1 C1).
        { eapply (SC _ _ _ _ _ _ _ _ _ _ t3 r1 C1 σ1) in H1; eauto; [tauto|]. rewrite Bv. exact R1. }
        destruct (o_ret o1) as [v|] eqn:Er.
        -- injection H as <-. unfold post in *. rewrite Er in *. destruct v; auto.
           all: destruct P1 as (x & -> & P1); destruct HR as (-> & -> & -> & ->); eauto.
        -- apply bind_Some in H as (o2 & H2 & H). injection H as <-. unfold post in P1. rewrite Er in P1.
           destruct P1 as (-> & PE & PK). destruct HR as (t4 & R2 & ->).
           pose proof (IHs _ _ _ _ _ _ H2 S ltac:(unfold well_formed; cbn [all_stmt]; rewrite D0, W1; exact W2)
             _ PE _ _ _ _ _ _ R2) as P2. unfold post in *. cbn. destruct (o_ret o2); [exact P2|].
           destruct P2 as (-> & P2 & P3). repeat split; auto. rewrite equations_app. by apply Forall2_app.
      * (* known and false *)
        assert (o1 = o) as -> by (destruct (o_ret o1); congruence).
        destruct HR as (b & t1 & t2 & E1 & -> & HR). apply post_trace; [eapply NE; eauto|].
        assert (Bv : (b =? 0) = true).
        { destruct (b =? 0) eqn:Eb; [done|]. destruct HR as (t3 & r1 & C1 & σ1 & R1 & _).
          eapply (SC _ _ _ _ _ _ _ _ _ _ t3 r1 C1 σ1) in H1; eauto.
          - rewrite Eb in H1. destruct H1. discriminate.
          - rewrite Eb. exact R1. }
        rewrite Bv in HR. destruct HR as (-> & -> & -> & ->).
        eapply (SC _ _ _ _ _ _ _ _ _ _ [] None C σ) in H1; eauto; [tauto|]. rewrite Bv. auto.
      * (* unknown *)
        assert (U1 : o_cs o1 = [] /\ rel_env up E (o_env o1)).
        { assert (nodecl_vague E o1) as ((X & _) & Y); [|auto].
          eapply scond_vague; [| |right; reflexivity|exact H1].
          - intros. destruct (vague_stmt _ _ _ _ _ _ _ _ _ _ W2 H0). split; auto.
          - intros ? ? ? ? HH; discriminate. }
        destruct U1 as [U1 U2].
        destruct (o_ret o1) as [v|] eqn:Er.
        -- injection H as <-.
           assert (V : o_ret o1 = None \/ o_ret o1 = Some NonQuadratic).
           { assert (nodecl_vague E o1) as ((_ & X & _) & _); [|exact X].
             eapply scond_vague; [| |right; reflexivity|exact H1].
             - intros. destruct (vague_stmt _ _ _ _ _ _ _ _ _ _ W2 H). split; auto.
             - intros ? ? ? ? HH; discriminate. }
           unfold post. destruct V as [V|V]; rewrite V in *; [discriminate|done].
        -- apply bind_Some in H as ([o2 k2] & H2 & H). injection H as <-. cbn in S.
           apply andb_prop in S as [S2 S3]. apply bool_decide_eq_true in S3.
           assert (X : forall m C σ tr r C' σ', rel_env I (o_env o1) C -> run m C σ (SWhile id c s) tr r C' σ' ->
             match o_ret o2 with
             | None => r = None /\ rel_env I (o_env o1) C' /\ equations tr = [] /\ o_cs o2 = []
             | Some NonQuadratic => True
             | Some v => exists x, r = Some x /\ I v x
             end); [|].
           { clear HR tr r C' σ' C HC m σ. induction m as [|m IHm]; intros C σ tr r C' σ' HC HR; [contradiction|].
             rewrite run_S in HR. destruct HR as (b & t1 & t2 & E1 & -> & HR).
             pose proof (NE _ _ _ _ _ _ E1) as N1.
             destruct (b =? 0) eqn:Eb.
             - destruct HR as (-> & -> & -> & ->).
               pose proof (SC _ _ _ _ _ C m σ b t1 [] None C σ H2 S2 HC E1 ltac:(rewrite Eb; auto)) as [P Q].
               unfold post in P. destruct (o_ret o2) as [v|]; [destruct v; auto|].
               destruct P as (_ & _ & P). repeat split; auto; [by rewrite equations_app, N1|]. by inversion P.
             - destruct HR as (t3 & r1 & C1 & σ1 & R1 & HR).
               pose proof (SC _ _ _ _ _ C m σ b t1 t3 r1 C1 σ1 H2 S2 HC E1 ltac:(rewrite Eb; auto)) as [P Q].
               unfold post in P. destruct (o_ret o2) as [v|] eqn:Er2.
               + destruct v; auto; destruct P as (x & -> & P); destruct HR as (-> & -> & -> & ->); eauto.
               + destruct P as (-> & PE & PK). rewrite S3 in PE. destruct HR as (t4 & R2 & ->).
                 destruct (IHm _ _ _ _ _ _ PE R2) as (-> & X1 & X2 & X3). repeat split; auto.
                 rewrite !equations_app, N1, X2. rewrite X3 in PK. inversion PK. done. }
           pose proof (X (Datatypes.S m) C σ tr r C' σ' (rel_up _ _ _ HC U2) ltac:(rewrite run_S; exact HR)) as Y.
           unfold post. cbn. destruct (o_ret o2) as [v|]; [exact Y|]. destruct Y as (-> & Y1 & Y2 & Y3).
           rewrite S3. repeat split; auto. rewrite U1, Y2, Y3. constructor.
    + apply bind_Some in H as (o1 & H1 & H). injection H as <-. destruct HR as (C1 & HR & ->).
      assert (HC1 : rel_env I (∅ :: E) (∅ :: C)).
      { constructor; [|exact HC]. intros x. rewrite !lookup_empty. constructor. }
      pose proof (Ps_seq n fn unk IHs _ _ _ _ H1 S W _ HC1 _ _ _ _ _ _ HR) as P.
      unfold post in *. cbn. destruct (o_ret o1); [exact P|]. destruct P as (-> & P & PK). repeat split; auto.
      inversion P; cbn; [constructor|assumption].
    + destruct fn; [|discriminate]. apply bind_Some in H as ([v a1] & H1 & H). injection H as <-.
      destruct HR as (x & E1 & -> & -> & ->). unfold post. cbn. destruct unk; [done|].
      pose proof (IHe _ _ _ _ _ H1 S W _ HC _ _ _ _ E1) as HI. destruct v; eauto.
    + apply bind_Some in H as ([v a1] & H1 & H). destruct HR as (x & t & E1 & -> & -> & -> & ->).
      destruct (bool_of v p) as [[]|]; try discriminate; injection H as <-; repeat split; cbn; auto;
        rewrite equations_app, (NE _ _ _ _ _ _ E1); constructor.
    + apply bind_Some in H as ([vs a1] & H1 & H). injection H as <-. destruct HR as (x & t & E1 & -> & -> & -> & ->).
      repeat split; cbn; auto. rewrite equations_app, (NA _ _ _ _ _ _ E1). constructor.
Qed.
End Sound.
