(** An interpreter of the code of templates, correct with respect to SymSpec.  It serves to show
    concrete runs in the examples. *)
From stdpp Require Import prelude gmap list.
From Coq Require Import ZArith.
From Verif Require Import ModArithModel AlgebraModel AlgebraSpec SymModel SymSpec SymProofs.
Open Scope Z_scope.

Global Instance infix_den_dec p op x y v : Decision (infix_den p op x y v).
Proof. unfold infix_den. destruct op; apply _. Defined.
Global Instance prefix_den_dec p op x v : Decision (prefix_den p op x v).
Proof. unfold prefix_den. destruct op; apply _. Defined.
Definition infix_val (p : Z) (op : infix_op) (x y : Z) : option Z :=
  match execute_infix_op op (Number x) (Number y) p with
  | Ok (Number v) => if decide (infix_den p op x y v) then Some v else None
  | _ => None
  end.
Definition prefix_val (p : Z) (op : prefix_op) (x : Z) : option Z :=
  match execute_prefix_op op (Number x) p with
  | Number v => if decide (prefix_den p op x v) then Some v else None
  | _ => None
  end.
Lemma infix_val_ok p op x y v : infix_val p op x y = Some v -> infix_den p op x y v.
Proof. unfold infix_val. intros H. repeat case_match; try discriminate. by injection H as <-. Qed.
Lemma prefix_val_ok p op x v : prefix_val p op x = Some v -> prefix_den p op x v.
Proof. unfold prefix_val. intros H. repeat case_match; try discriminate. by injection H as <-. Qed.

Section Interp.
Context (p : Z) (wire : nat -> list Z -> option nat) (F : funs) (M : mode).
Context (rdf : st M -> nat -> option Z) (wrf : st M -> nat -> Z -> option (st M)) (quit : st M -> st M -> bool).
Hypothesis Hrd : forall σ k v, rdf σ k = Some v -> rd M σ k v.
Hypothesis Hwr : forall σ k v σ', wrf σ k v = Some σ' -> wr M σ k v σ'.
Hypothesis Hquit : forall σ σ', quit σ σ' = true -> σ' = σ.

Fixpoint iall (f : expr -> option (Z * list event)) (l : list expr) : option (list Z * list event) :=
  match l with
  | [] => Some ([], [])
  | e :: r => '(v, t1) ← f e; '(vs, t2) ← iall f r; Some (v :: vs, t1 ++ t2)
  end.
Fixpoint iseq (f : env Z -> st M -> stmt -> option (list event * option Z * env Z * st M))
  (E : env Z) (σ : st M) (l : list stmt) : option (list event * option Z * env Z * st M) :=
  match l with
  | [] => Some ([], None, E, σ)
  | s :: l =>
      '(t1, r1, E1, σ1) ← f E σ s;
      match r1 with
      | Some v => Some (t1, Some v, E1, σ1)
      | None => '(t2, r, E', σ') ← iseq f E1 σ1 l; Some (t1 ++ t2, r, E', σ')
      end
  end.
Fixpoint iev (n : nat) (E : env Z) (σ : st M) (e : expr) : option (Z * list event) :=
  match n with
  | O => None
  | S n =>
      match e with
      | ENum _ z => Some (z mod p, [])
      | EVar _ x idx => '(is, tr) ← iall (iev n E σ) idx; c ← get x E; v ← c !! is; Some (v, tr)
      | ESig _ s idx => '(is, tr) ← iall (iev n E σ) idx; k ← wire s is; v ← rdf σ k; Some (v, tr)
      | EInfix _ op l r => '(x, t1) ← iev n E σ l; '(y, t2) ← iev n E σ r; v ← infix_val p op x y; Some (v, t1 ++ t2)
      | EPrefix _ op e => '(x, t1) ← iev n E σ e; v ← prefix_val p op x; Some (v, t1)
      | ESwitch _ c t f => '(b, t1) ← iev n E σ c; '(v, t2) ← iev n E σ (if b =? 0 then f else t); Some (v, t1 ++ t2)
      | ECall _ f args =>
          '(xs, body) ← F f; '(vs, t1) ← iall (iev n E σ) args;
          if bool_decide (length xs = length vs) then
            '(t2, r, _, σ') ← iseq (irun n) (bind_args xs vs) σ body;
            v ← r; if quit σ σ' then Some (v, t1 ++ t2) else None
          else None
      end
  end
with irun (n : nat) (E : env Z) (σ : st M) (s : stmt) : option (list event * option Z * env Z * st M) :=
  match n with
  | O => None
  | S n =>
      match s with
      | SInit _ l => iseq (irun n) E σ l
      | SDecl _ x dims => '(ds, tr) ← iall (iev n E σ) dims; E' ← declare x (full ds 0) E; Some (tr, None, E', σ)
      | SAssign _ x idx e =>
          '(is, t1) ← iall (iev n E σ) idx; '(v, t2) ← iev n E σ e; c ← get x E; _ ← c !! is;
          Some (t1 ++ t2, None, put x (<[is := v]> c) E, σ)
      | SFill _ x dims e =>
          '(ds, t1) ← iall (iev n E σ) dims; '(v, t2) ← iev n E σ e; c ← get x E;
          if bool_decide (dom c = dom (full ds v)) then Some (t1 ++ t2, None, put x (full ds v) E, σ) else None
      | SSignal _ eq s idx e =>
          '(is, t1) ← iall (iev n E σ) idx; '(v, t2) ← iev n E σ e; k ← wire s is; σ' ← wrf σ k v;
          if eq : bool then l ← rdf σ' k; Some (t1 ++ t2 ++ [EvSet k v; EvEq true l v], None, E, σ')
          else Some (t1 ++ t2 ++ [EvSet k v], None, E, σ')
      | SEqual _ l r => '(x, t1) ← iev n E σ l; '(y, t2) ← iev n E σ r; Some (t1 ++ t2 ++ [EvEq false x y], None, E, σ)
      | SIf _ c t f =>
          '(b, t1) ← iev n E σ c;
          '(t2, r, E', σ') ← (if b =? 0 then match f with Some f => irun n E σ f | None => Some ([], None, E, σ) end
                              else irun n E σ t);
          Some (t1 ++ t2, r, E', σ')
      | SWhile id c b =>
          '(v, t1) ← iev n E σ c;
          if v =? 0 then Some (t1, None, E, σ)
          else
            '(t3, r1, E1, σ1) ← irun n E σ b;
            match r1 with
            | Some x => Some (t1 ++ t3, Some x, E1, σ1)
            | None => '(t4, r, E', σ') ← irun n E1 σ1 (SWhile id c b); Some (t1 ++ t3 ++ t4, r, E', σ')
            end
      | SBlock _ l => '(tr, r, E1, σ') ← iseq (irun n) (∅ :: E) σ l; Some (tr, r, tail E1, σ')
      | SReturn _ e => '(v, tr) ← iev n E σ e; Some (tr, Some v, E, σ)
      | SAssert _ e => '(v, t) ← iev n E σ e; Some (t ++ [EvAssert (negb (v =? 0))], None, E, σ)
      | SLog _ es => '(vs, t) ← iall (iev n E σ) es; Some (t ++ [EvLog vs], None, E, σ)
      end
  end.

Lemma iall_ok f (P : expr -> Z -> list event -> Prop) l vs tr :
  (forall e v t, f e = Some (v, t) -> P e v t) -> iall f l = Some (vs, tr) -> ev_all P l vs tr.
Proof.
  intros H. revert vs tr. induction l as [|e l IH]; intros vs tr E; cbn in *.
  - by injection E as <- <-.
  - apply bind_Some in E as ([v t1] & E1 & E). apply bind_Some in E as ([ws t2] & E2 & E). injection E as <- <-.
    exists v, ws, t1, t2. auto.
Qed.
Lemma iseq_ok (g : env Z -> st M -> stmt -> option (list event * option Z * env Z * st M)) (R : env Z -> st M -> stmt -> list event -> option Z -> env Z -> st M -> Prop) E σ l tr r E' σ' :
  (forall E σ s t r E' σ', g E σ s = Some (t, r, E', σ') -> R E σ s t r E' σ') ->
  iseq g E σ l = Some (tr, r, E', σ') -> run_seq M R E σ l tr r E' σ'.
Proof.
  intros H. revert E σ tr r E' σ'. induction l as [|s l IH]; intros E σ tr r E' σ' I; cbn in *.
  - injection I as <- <- <- <-. auto.
  - apply bind_Some in I as ([[[t1 r1] E1] σ1] & I1 & I). exists t1, r1, E1, σ1. split; [auto|]. destruct r1.
    + injection I as <- <- <- <-. auto.
    + apply bind_Some in I as ([[[t2 r2] E2] σ2] & I2 & I). injection I as <- <- <- <-. eauto.
Qed.
Lemma interp_ok n :
  (forall E σ e v tr, iev n E σ e = Some (v, tr) -> ev p wire F M n E σ e v tr) /\
  (forall E σ s tr r E' σ', irun n E σ s = Some (tr, r, E', σ') -> run p wire F M n E σ s tr r E' σ').
Proof.
  induction n as [|n [IHe IHs]]; [done|].
  assert (LA : forall E σ l vs tr, iall (iev n E σ) l = Some (vs, tr) -> ev_all (ev p wire F M n E σ) l vs tr).
  { intros E σ l vs tr. apply iall_ok. auto. }
  assert (LS : forall E σ l tr r E' σ', iseq (irun n) E σ l = Some (tr, r, E', σ') ->
    run_seq M (run p wire F M n) E σ l tr r E' σ').
  { intros E σ l tr r E' σ'. apply iseq_ok. auto. }
  split.
  - intros E σ e v tr I. rewrite ev_S. destruct e as [id z|id x idx|id s idx|id op l r|id op e|id c t f|id f args];
      cbn [iev] in I.
    + injection I as <- <-. auto.
    + apply bind_Some in I as ([is t] & I1 & I). apply bind_Some in I as (c & I2 & I).
      apply bind_Some in I as (w & I3 & I). injection I as <- <-. exists is, c. auto.
    + apply bind_Some in I as ([is t] & I1 & I). apply bind_Some in I as (c & I2 & I).
      apply bind_Some in I as (w & I3 & I). injection I as <- <-. exists is, c. auto.
    + apply bind_Some in I as ([x t1] & I1 & I). apply bind_Some in I as ([y t2] & I2 & I).
      apply bind_Some in I as (w & I3 & I). injection I as <- <-. exists x, y, t1, t2. auto using infix_val_ok.
    + apply bind_Some in I as ([x t1] & I1 & I). apply bind_Some in I as (w & I3 & I). injection I as <- <-.
      exists x. auto using prefix_val_ok.
    + apply bind_Some in I as ([b t1] & I1 & I). apply bind_Some in I as ([w t2] & I2 & I). injection I as <- <-.
      exists b, t1, t2. auto.
    + apply bind_Some in I as ([xs body] & I1 & I). apply bind_Some in I as ([vs t1] & I2 & I).
      case_bool_decide as L; [|discriminate]. apply bind_Some in I as ([[[t2 r] E'] σ'] & I3 & I).
      apply bind_Some in I as (w & -> & I). destruct (quit σ σ') eqn:Q; [|discriminate]. injection I as <- <-.
      apply Hquit in Q as ->. exists xs, body, vs, t1, t2, E'. auto 10.
  - intros E σ s tr r E' σ' I. rewrite run_S.
    destruct s as [id l|id x dims|id x idx e|id x dims e|id eq s idx e|id l r0|id c t f|id c b|id l|id e|id e|id es];
      cbn [irun] in I.
    + auto.
    + apply bind_Some in I as ([ds t1] & I1 & I). apply bind_Some in I as (E1 & I2 & I). injection I as <- <- <- <-.
      exists ds. auto.
    + apply bind_Some in I as ([ds t1] & I1 & I). apply bind_Some in I as ([v t2] & I2 & I).
      apply bind_Some in I as (c & I3 & I). apply bind_Some in I as (w & I4 & I). injection I as <- <- <- <-.
      exists ds, v, c, t1, t2. rewrite I4. eauto 10.
    + apply bind_Some in I as ([ds t1] & I1 & I). apply bind_Some in I as ([v t2] & I2 & I).
      apply bind_Some in I as (c & I3 & I). case_bool_decide; [|discriminate]. injection I as <- <- <- <-.
      exists ds, v, c, t1, t2. auto 10.
    + apply bind_Some in I as ([ds t1] & I1 & I). apply bind_Some in I as ([v t2] & I2 & I).
      apply bind_Some in I as (k & I3 & I). apply bind_Some in I as (σ1 & I4 & I). destruct eq.
      * apply bind_Some in I as (l & I5 & I). injection I as <- <- <- <-. exists ds, v, k, t1, t2.
        do 6 (split; [solve [auto]|]). exists l. auto.
      * injection I as <- <- <- <-. exists ds, v, k, t1, t2. auto 10.
    + apply bind_Some in I as ([x t1] & I1 & I). apply bind_Some in I as ([y t2] & I2 & I). injection I as <- <- <- <-.
      exists x, y, t1, t2. auto 10.
    + apply bind_Some in I as ([b t1] & I1 & I). apply bind_Some in I as ([[[t2 r1] E1] σ1] & I2 & I).
      injection I as <- <- <- <-. exists b, t1, t2. split; [auto|]. split; [done|].
      destruct (b =? 0); [destruct f|]; auto. injection I2 as <- <- <- <-. auto.
    + apply bind_Some in I as ([b0 t1] & I1 & I). destruct (b0 =? 0) eqn:B.
      * injection I as <- <- <- <-. exists b0, t1, []. rewrite B, app_nil_r. auto 10.
      * apply bind_Some in I as ([[[t3 r1] E1] σ1] & I2 & I). destruct r1.
        -- injection I as <- <- <- <-. exists b0, t1, t3. rewrite B. split; [auto|]. split; [done|].
           exists t3, (Some z), E1, σ1. auto 10.
        -- apply bind_Some in I as ([[[t4 r2] E2] σ2] & I3 & I). injection I as <- <- <- <-.
           exists b0, t1, (t3 ++ t4). rewrite B. split; [auto|]. split; [done|].
           exists t3, None, E1, σ1. eauto 10.
    + apply bind_Some in I as ([[[t3 r1] E1] σ1] & I2 & I). injection I as <- <- <- <-. exists E1. auto 10.
    + apply bind_Some in I as ([x t1] & I1 & I). injection I as <- <- <- <-. exists x. auto 10.
    + apply bind_Some in I as ([x t1] & I1 & I). injection I as <- <- <- <-. exists x, t1. auto 10.
    + apply bind_Some in I as ([x t1] & I1 & I). injection I as <- <- <- <-. exists x, t1. auto 10.
Qed.
Definition iruns (n : nat) (xs : list nat) (vs : list Z) (body : list stmt) (σ : st M) :=
  iseq (irun n) (bind_args xs vs) σ body.
Lemma iruns_ok n xs vs body σ tr r E' σ' : iruns n xs vs body σ = Some (tr, r, E', σ') ->
  runs p wire F M xs vs body σ tr r E' σ'.
Proof. intros H. exists n. eapply iseq_ok; [|exact H]. apply interp_ok. Qed.
End Interp.

Definition icompute p wire F n xs vs body σ :=
  iruns p wire F computing (fun σ k => σ !! k) (fun σ k v => match σ !! k with None => Some (<[k := v]> σ) | _ => None end)
    (fun σ σ' => bool_decide (σ' = σ)) n xs vs body σ.
Lemma icompute_ok p wire F n xs vs body σ tr r E' σ' : icompute p wire F n xs vs body σ = Some (tr, r, E', σ') ->
  runs p wire F computing xs vs body σ tr r E' σ'.
Proof.
  apply iruns_ok; cbn.
  - auto.
  - intros σ0 k v σ1 H. destruct (σ0 !! k) eqn:E0; [discriminate|]. by injection H as <-.
  - intros σ0 σ1 H. by apply bool_decide_eq_true in H.
Qed.
Definition igiven p wire F φ n xs vs body :=
  iruns p wire F (given p φ) (fun _ k => Some (φ (S k) mod p)) (fun _ _ _ => Some tt) (fun _ _ => true) n xs vs body tt.
Lemma igiven_ok p wire F φ n xs vs body tr r E' σ' : igiven p wire F φ n xs vs body = Some (tr, r, E', σ') ->
  runs p wire F (given p φ) xs vs body tt tr r E' σ'.
Proof.
  apply iruns_ok; cbn.
  - congruence.
  - auto.
  - by intros [] [].
Qed.
