(** Model of circom_algebra/src/algebra.rs.
    The Rust code is generic in the signal type [C]; here [C] is [usize], modelled as [nat], whose
    default value 0 is the key of the constant term (algebra.rs:155-157).
    [HashMap<usize,BigInt>] is [gmap nat Z].  A panic ([unwrap] on [None], failed [assert!]) is
    the value [Panic] of [res].  [debug_assert!]s are not modelled (absent in release builds). *)
From stdpp Require Import prelude gmap fin_maps.
From Coq Require Import ZArith.
From Verif Require Import ModArithModel.
Open Scope Z_scope.

Notation lin := (gmap nat Z).

Definition res_bind {A B} (x : res A) (f : A -> res B) : res B :=
  match x with Ok a => f a | DivisionByZero => DivisionByZero | Panic => Panic end.
Definition res_map {A B} (f : A -> B) (x : res A) : res B := res_bind x (fun a => Ok (f a)).

(** algebra.rs:9-34 *)
Inductive aexpr : Type :=
| Number (value : Z)
| Signal (symbol : nat)
| Linear (coefficients : lin)
| Quadratic (a b c : lin)
| NonQuadratic.

(** algebra.rs:1001-1009: the constraint A*B - C = 0. *)
Record constraint : Type := Constraint { c_a : lin; c_b : lin; c_c : lin }.
(** algebra.rs:834-841 *)
Record substitution : Type := Substitution { s_from : nat; s_to : lin }.

(** algebra.rs:155-157 [constant_coefficient] *)
Definition cc : nat := 0%nat.

(** algebra.rs:158-163 [initialize_hashmap_for_expression] *)
Definition init_expr (m : lin) : lin :=
  match m !! cc with Some _ => m | None => <[cc := 0]> m end.
Definition init_empty : lin := init_expr ∅.

(** algebra.rs:175-187 [add_constant_to_coefficients]; [get(&cc).unwrap()] panics when absent. *)
Definition add_constant (v : Z) (m : lin) (p : Z) : res lin :=
  match m !! cc with
  | Some c => Ok (<[cc := add c v p]> m)
  | None => Panic
  end.

(** algebra.rs:168-174, 188-201 [initialize_symbol_in_coefficients], [add_symbol_to_coefficients] *)
Definition add_symbol (s : nat) (k : Z) (m : lin) (p : Z) : lin :=
  <[s := add (default 0 (m !! s)) k p]> m.

(** algebra.rs:202-219 [add_coefficients_to_coefficients].  The loop visits [c0] in hash order;
    [map_fold] fixes one order.  AlgebraProofs.add_coeffs_any_order shows that every order gives
    the same map. *)
Definition add_coeffs (c0 c1 : lin) (p : Z) : lin :=
  map_fold (fun s k acc => add_symbol s k acc p) c1 c0.

(** algebra.rs:220-230 [multiply_coefficients_by_constant] *)
Definition mul_const (k : Z) (m : lin) (p : Z) : lin := (fun v => mul v k p) <$> m.

(** algebra.rs:231-245 [divide_coefficients_by_constant] *)
Definition div_const (k : Z) (m : lin) (p : Z) : res lin :=
  res_bind (div 1 k p) (fun i => Ok (mul_const i m p)).

(** algebra.rs:247-347 [ArithmeticExpression::add] *)
Definition aadd (l r : aexpr) (p : Z) : res aexpr :=
  match l, r with
  | NonQuadratic, _ | _, NonQuadratic | Quadratic _ _ _, Quadratic _ _ _ => Ok NonQuadratic
  | Number v0, Number v1 => Ok (Number (add v0 v1 p))
  | Number v, Signal s | Signal s, Number v =>
      res_map (fun m => Linear (add_symbol s 1 m p)) (add_constant v init_empty p)
  | Number v, Linear m | Linear m, Number v => res_map Linear (add_constant v m p)
  | Number v, Quadratic a b c | Quadratic a b c, Number v =>
      res_map (Quadratic a b) (add_constant v c p)
  | Signal s0, Signal s1 => Ok (Linear (add_symbol s1 1 (add_symbol s0 1 init_empty p) p))
  | Signal s, Linear m | Linear m, Signal s => Ok (Linear (add_symbol s 1 m p))
  | Signal s, Quadratic a b c | Quadratic a b c, Signal s =>
      Ok (Quadratic a b (add_symbol s 1 c p))
  | Linear m0, Linear m1 => Ok (Linear (add_coeffs m0 m1 p))
  | Linear m, Quadratic a b c | Quadratic a b c, Linear m =>
      Ok (Quadratic a b (add_coeffs m c p))
  end.

(** algebra.rs:349-440 [ArithmeticExpression::mul] *)
Definition amul (l r : aexpr) (p : Z) : aexpr :=
  match l, r with
  | NonQuadratic, _ | _, NonQuadratic
  | Quadratic _ _ _, Quadratic _ _ _ | Quadratic _ _ _, Linear _ | Linear _, Quadratic _ _ _
  | Quadratic _ _ _, Signal _ | Signal _, Quadratic _ _ _ => NonQuadratic
  | Number v0, Number v1 => Number (mul v0 v1 p)
  | Number v, Signal s | Signal s, Number v => Linear (add_symbol s v init_empty p)
  | Number v, Linear m | Linear m, Number v => Linear (mul_const v m p)
  | Number v, Quadratic a b c | Quadratic a b c, Number v =>
      Quadratic (mul_const v a p) b (mul_const v c p)
  | Signal s0, Signal s1 =>
      Quadratic (add_symbol s0 1 init_empty p) (add_symbol s1 1 init_empty p) init_empty
  | Signal s, Linear m | Linear m, Signal s =>
      Quadratic m (add_symbol s 1 init_empty p) init_empty
  | Linear m0, Linear m1 => Quadratic m0 m1 init_empty
  end.

(** algebra.rs:441-450 [sub] *)
Definition asub (l r : aexpr) (p : Z) : res aexpr := aadd l (amul (Number (-1)) r p) p.

(** algebra.rs:452-498 [div] *)
Definition adiv (l r : aexpr) (p : Z) : res aexpr :=
  match l, r with
  | Number v0, Number v1 => res_map Number (div v0 v1 p)
  | Signal s, Number v => res_map Linear (div_const v (add_symbol s 1 init_empty p) p)
  | Linear m, Number v => res_map Linear (div_const v m p)
  | Quadratic a b c, Number v =>
      res_bind (div_const v a p) (fun a' => res_map (fun c' => Quadratic a' b c') (div_const v c p))
  | _, _ => Ok NonQuadratic
  end.

(** algebra.rs:526-549 [pow] *)
Definition apow (l r : aexpr) (p : Z) : res aexpr :=
  match l, r with
  | Number v0, Number v1 => res_map Number (pow v0 v1 p)
  | Signal s, Number v => if v =? 2 then Ok (amul (Signal s) (Signal s) p) else Ok NonQuadratic
  | Linear m, Number v => if v =? 2 then Ok (amul (Linear m) (Linear m) p) else Ok NonQuadratic
  | _, _ => Ok NonQuadratic
  end.

(** algebra.rs:550-554 [prefix_sub] *)
Definition aneg (e : aexpr) (p : Z) : aexpr := amul e (Number (-1)) p.

(** algebra.rs:499-525, 568-593: binary operations defined on numbers only, with an error. *)
Definition num2r (f : Z -> Z -> res Z) (l r : aexpr) : res aexpr :=
  match l, r with
  | Number x, Number y => res_map Number (f x y)
  | _, _ => Ok NonQuadratic
  end.
(** algebra.rs:594-632, 652-755: binary operations defined on numbers only. *)
Definition num2 (f : Z -> Z -> Z) (l r : aexpr) : aexpr :=
  match l, r with
  | Number x, Number y => Number (f x y)
  | _, _ => NonQuadratic
  end.
(** algebra.rs:557-567, 643-651: unary operations defined on numbers only. *)
Definition num1 (f : Z -> Z) (e : aexpr) : aexpr :=
  match e with Number x => Number (f x) | _ => NonQuadratic end.

(** The operators of algebra.rs:499-755 that act on numbers only. *)
Definition aidiv (l r : aexpr) (p : Z) : res aexpr := num2r (fun x y => idiv x y p) l r.
Definition amod (l r : aexpr) (p : Z) : res aexpr := num2r (fun x y => mod_op x y p) l r.
Definition ashift_l (fuel : nat) (l r : aexpr) (p : Z) : res aexpr := num2r (fun x y => shift_l fuel x y p) l r.
Definition ashift_r (fuel : nat) (l r : aexpr) (p : Z) : res aexpr := num2r (fun x y => shift_r fuel x y p) l r.
Definition abit_or (l r : aexpr) (p : Z) : aexpr := num2 (fun x y => bit_or x y p) l r.
Definition abit_and (l r : aexpr) (p : Z) : aexpr := num2 (fun x y => bit_and x y p) l r.
Definition abit_xor (l r : aexpr) (p : Z) : aexpr := num2 (fun x y => bit_xor x y p) l r.
Definition abool_or (l r : aexpr) (p : Z) : aexpr := num2 (fun x y => bool_or x y p) l r.
Definition abool_and (l r : aexpr) (p : Z) : aexpr := num2 (fun x y => bool_and x y p) l r.
Definition aeq (l r : aexpr) (p : Z) : aexpr := num2 (fun x y => eq x y p) l r.
Definition anot_eq (l r : aexpr) (p : Z) : aexpr := num2 (fun x y => not_eq x y p) l r.
Definition alesser (l r : aexpr) (p : Z) : aexpr := num2 (fun x y => lesser x y p) l r.
Definition alesser_eq (l r : aexpr) (p : Z) : aexpr := num2 (fun x y => lesser_eq x y p) l r.
Definition agreater (l r : aexpr) (p : Z) : aexpr := num2 (fun x y => greater x y p) l r.
Definition agreater_eq (l r : aexpr) (p : Z) : aexpr := num2 (fun x y => greater_eq x y p) l r.
Definition anot (e : aexpr) (p : Z) : aexpr := num1 (fun x => ModArithModel.not x p) e.
Definition acomplement (e : aexpr) (p : Z) : aexpr := num1 (fun x => complement x p) e.

(** algebra.rs:113-145 [transform_expression_to_constraint_form]; [None] for non-quadratic. *)
Definition to_constraint (e : aexpr) (p : Z) : option constraint :=
  let fin a b c := Some (Constraint a b (mul_const (-1) c p)) in
  match e with
  | NonQuadratic => None
  | Quadratic a b c => fin a b c
  | Number v => fin init_empty init_empty (<[cc := v]> init_empty)
  | Signal s => fin init_empty init_empty (<[s := 1]> init_empty)
  | Linear m => fin init_empty init_empty m
  end.

(** algebra.rs:1296-1307 [remove_zero_value_coefficients] *)
Definition remove_zeros (m : lin) : lin := filter (fun kv => kv.2 <> 0) m.

(** algebra.rs:1279-1294 [raw_substitution] *)
Definition raw_substitution (m : lin) (s : substitution) (p : Z) : lin :=
  let m := init_expr m in
  match m !! s_from s with
  | None => m
  | Some v => add_coeffs (mul_const v (init_expr (s_to s)) p) (delete (s_from s) m) p
  end.

(** algebra.rs:758-782 [ArithmeticExpression::apply_substitutions] *)
Definition asubst (e : aexpr) (s : substitution) (p : Z) : aexpr :=
  let f m := remove_zeros (raw_substitution m s p) in
  match e with
  | Linear m => Linear (f m)
  | Signal x => if Nat.eqb x (s_from s) then Linear (s_to s) else e
  | Quadratic a b c => Quadratic (f a) (f b) (f c)
  | _ => e
  end.

(** algebra.rs:804-825 [hashmap_into_arith] (same body as [decompose], 906-928). *)
Definition hashmap_into_arith (m : lin) : aexpr :=
  match map_to_list m with
  | [(k, v)] => if Nat.eqb k cc then Number v
                else if v =? 1 then Signal k else Linear (init_expr m)
  | _ => Linear (init_expr m)
  end.

(** algebra.rs:844-862 [Substitution::new] *)
Definition subst_new (from : nat) (to : aexpr) : option substitution :=
  match to with
  | Number v => Some (Substitution from {[ cc := v ]})
  | Signal s => Some (Substitution from {[ s := 1 ]})
  | Linear m => match m !! from with None => Some (Substitution from m) | Some _ => None end
  | _ => None
  end.

(** algebra.rs:906-928 [decompose] *)
Definition decompose (s : substitution) : nat * aexpr := (s_from s, hashmap_into_arith (s_to s)).

(** algebra.rs:890-892 [Substitution::apply_substitution] *)
Definition subst_apply (src change : substitution) (p : Z) : substitution :=
  Substitution (s_from src) (raw_substitution (s_to src) change p).
(** algebra.rs:969-971 [rmv_zero_coefficients] *)
Definition subst_rmv_zeros (s : substitution) : substitution :=
  Substitution (s_from s) (remove_zeros (s_to s)).

(** algebra.rs:894-904 [substitution_into_constraint]; [-1 % field] is -1 (truncated). *)
Definition subst_into_constraint (s : substitution) (p : Z) : option constraint :=
  to_constraint (Linear (<[s_from s := Z.rem (-1) p]> (init_expr (s_to s)))) p.

(** algebra.rs:1016-1022 *)
Definition c_empty : constraint := Constraint ∅ ∅ ∅.
(** algebra.rs:1052-1054, 1159-1161 *)
Definition is_empty_map (m : lin) : bool := bool_decide (m = ∅).
Definition is_linear (c : constraint) : bool := is_empty_map (c_a c) && is_empty_map (c_b c).
Definition is_empty (c : constraint) : bool :=
  is_empty_map (c_a c) && is_empty_map (c_b c) && is_empty_map (c_c c).

(** algebra.rs:1108-1124 [clear_signal] *)
Definition clear_signal (m : lin) (k : nat) (p : Z) : res lin :=
  match m !! k with
  | None => Panic
  | Some v =>
      if v =? 0 then Panic else
      match div_const (mul v (-1) p) (init_expr (delete k m)) p with
      | Ok m' => Ok (remove_zeros m')
      | _ => Panic
      end
  end.
(** algebra.rs:1126-1136 [clear_signal_not_normalized] *)
Definition clear_signal_nn (m : lin) (k : nat) (p : Z) : res (Z * lin) :=
  match m !! k with
  | None => Panic
  | Some v => if v =? 0 then Panic else Ok (mul v (-1) p, init_expr (delete k m))
  end.

(** algebra.rs:1056-1065, 1067-1076 [clear_signal_from_linear(_not_normalized)] *)
Definition clear_signal_from_linear (c : constraint) (k : nat) (p : Z) : res substitution :=
  res_map (Substitution k) (clear_signal (c_c c) k p).
Definition clear_signal_from_linear_nn (c : constraint) (k : nat) (p : Z)
  : res (Z * substitution) :=
  res_map (fun '(v, m) => (v, Substitution k m)) (clear_signal_nn (c_c c) k p).

(** algebra.rs:1138-1147 [Constraint::apply_substitution] *)
Definition c_subst (c : constraint) (s : substitution) (p : Z) : constraint :=
  Constraint (raw_substitution (c_a c) s p) (raw_substitution (c_b c) s p)
             (raw_substitution (c_c c) s p).
(** algebra.rs:1149-1153 *)
Definition c_remove_zeros (c : constraint) : constraint :=
  Constraint (remove_zeros (c_a c)) (remove_zeros (c_b c)) (remove_zeros (c_c c)).

(** algebra.rs:1374-1380 [is_constant_expression] *)
Definition is_constant_expr (m : lin) : bool :=
  match m !! cc with Some _ => Nat.eqb (size m) 1 | None => false end.

(** algebra.rs:1326-1344 [constant_linear_linear_reduction]; returns the new [c] ([a] and [b] are
    cleared).  [remove(a,&cq).unwrap()] panics when absent; the caller has checked it. *)
Definition const_lin_reduction (a b c : lin) (p : Z) : res lin :=
  match a !! cc with
  | None => Panic
  | Some k =>
      let b := mul_const (-1) (mul_const k (init_expr b) p) p in
      Ok (remove_zeros (add_coeffs b (init_expr c) p))
  end.

(** algebra.rs:1309-1324 [fix_raw_constraint] and 1155-1157 [fix_constraint] *)
Definition fix_constraint (x : constraint) (p : Z) : res constraint :=
  let a := remove_zeros (c_a x) in
  let b := remove_zeros (c_b x) in
  let c := remove_zeros (c_c x) in
  if is_empty_map a || is_empty_map b then Ok (Constraint ∅ ∅ c)
  else if is_constant_expr a then res_map (Constraint ∅ ∅) (const_lin_reduction a b c p)
  else if is_constant_expr b then res_map (Constraint ∅ ∅) (const_lin_reduction b a c p)
  else Ok (Constraint a b c).

(** algebra.rs:1346-1360 [signal_equals_signal] / 1180-1182 [is_equality].  [keys()] of the
    two-element map comes in hash order; the test is symmetric for canonical coefficients. *)
Definition is_equality (c : constraint) (p : Z) : bool :=
  is_empty_map (c_a c) && is_empty_map (c_b c) &&
  match c_c c !! cc with Some _ => false | None => true end &&
  match map_to_list (c_c c) with
  | [(_, v0); (_, v1)] => mul (-1) v1 p =? v0
  | _ => false
  end.
(** algebra.rs:1362-1372 [signal_equals_constant] / 1184-1186 [is_constant_equality] *)
Definition is_constant_equality (c : constraint) : bool :=
  is_empty_map (c_a c) && is_empty_map (c_b c) &&
  match c_c c !! cc with
  | Some _ => Nat.eqb (size (c_c c)) 2
  | None => Nat.eqb (size (c_c c)) 1
  end.

(** algebra.rs:1078-1106, 1199-1212 [take_cloned_signals] *)
Definition keys (m : lin) : gset nat := dom m.
Definition take_signals (c : constraint) : gset nat :=
  (keys (c_a c) ∪ keys (c_b c) ∪ keys (c_c c)) ∖ {[ cc ]}.

(** algebra.rs:1266-1277 [apply_raw_offset] *)
Definition raw_offset (m : lin) (off : nat) : lin :=
  map_fold (fun k v acc => <[ (if Nat.eqb k cc then k else (k + off)%nat) := v ]> acc) ∅ m.
(** algebra.rs:1217-1222 [Constraint::apply_offset] *)
Definition c_offset (c : constraint) (off : nat) : constraint :=
  Constraint (raw_offset (c_a c) off) (raw_offset (c_b c) off) (raw_offset (c_c c) off).
(** algebra.rs:988-994 [Substitution::apply_offset] *)
Definition s_offset (s : substitution) (off : nat) : substitution :=
  Substitution (s_from s + off) (raw_offset (s_to s) off).

(** algebra.rs:1245-1264 [apply_raw_correspondence]; an unknown signal panics. *)
Definition raw_correspondence (m : lin) (corr : gmap nat nat) : res lin :=
  map_fold (fun k v acc =>
    res_bind acc (fun acc =>
      if Nat.eqb k cc then Ok (<[cc := v]> acc)
      else match corr !! k with Some k' => Ok (<[k' := v]> acc) | None => Panic end)) (Ok ∅) m.
(** algebra.rs:1037-1048 [Constraint::apply_correspondence] *)
Definition c_correspondence (c : constraint) (corr : gmap nat nat) : res constraint :=
  res_bind (raw_correspondence (c_a c) corr) (fun a =>
  res_bind (raw_correspondence (c_b c) corr) (fun b =>
  res_bind (raw_correspondence (c_c c) corr) (fun c => Ok (Constraint a b c)))).

(** algebra.rs:1234-1243 [apply_vectored_correspondence] / 1223-1228 [apply_witness]; [map[*s]]
    panics when out of range. *)
Definition raw_vectored (m : lin) (w : list nat) : res lin :=
  map_fold (fun k v acc =>
    res_bind acc (fun acc =>
      match w !! k with Some k' => Ok (<[k' := v]> acc) | None => Panic end)) (Ok ∅) m.
Definition c_witness (c : constraint) (w : list nat) : res constraint :=
  res_bind (raw_vectored (c_a c) w) (fun a =>
  res_bind (raw_vectored (c_b c) w) (fun b =>
  res_bind (raw_vectored (c_c c) w) (fun c => Ok (Constraint a b c)))).

(** program_structure/src/abstract_syntax_tree/ast.rs [ExpressionInfixOpcode], [ExpressionPrefixOpcode] *)
Inductive infix_op : Type :=
| Mul | Div | Add | Sub | Pow | IntDiv | Mod | ShiftL | ShiftR
| LesserEq | GreaterEq | Lesser | Greater | Eq | NotEq
| BoolOr | BoolAnd | BitOr | BitAnd | BitXor.
Inductive prefix_op : Type := PSub | BoolNot | Complement.

(** constraint_generation/src/execute.rs:3636-3673 [execute_infix_op] (the error report of
    [treat_result_with_arithmetic_error] is the [DivisionByZero] value).  The shift recursion
    needs at most two unfoldings (C05), so fuel 2 loses nothing. *)
Definition execute_infix_op (op : infix_op) (l r : aexpr) (p : Z) : res aexpr :=
  match op with
  | Mul => Ok (amul l r p)
  | Div => adiv l r p
  | Add => aadd l r p
  | Sub => asub l r p
  | Pow => apow l r p
  | IntDiv => aidiv l r p
  | Mod => amod l r p
  | ShiftL => ashift_l 2 l r p
  | ShiftR => ashift_r 2 l r p
  | LesserEq => Ok (alesser_eq l r p)
  | GreaterEq => Ok (agreater_eq l r p)
  | Lesser => Ok (alesser l r p)
  | Greater => Ok (agreater l r p)
  | Eq => Ok (aeq l r p)
  | NotEq => Ok (anot_eq l r p)
  | BoolOr => Ok (abool_or l r p)
  | BoolAnd => Ok (abool_and l r p)
  | BitOr => Ok (abit_or l r p)
  | BitAnd => Ok (abit_and l r p)
  | BitXor => Ok (abit_xor l r p)
  end.
(** execute.rs:3675-3688 [execute_prefix_op] *)
Definition execute_prefix_op (op : prefix_op) (e : aexpr) (p : Z) : aexpr :=
  match op with
  | BoolNot => anot e p
  | PSub => aneg e p
  | Complement => acomplement e p
  end.

(** Scalar fragment of execute.rs:952-... [execute_expression]: number literals (962-966, the
    literal is not reduced), signal reads, infix and prefix operators.  Arrays, calls, the
    ternary operator, variables and tags are not part of this tree. *)
Inductive tree : Type :=
| TNum (v : Z)
| TSig (s : nat)
| TInfix (op : infix_op) (l r : tree)
| TPrefix (op : prefix_op) (t : tree).
Fixpoint exec_tree (p : Z) (t : tree) : res aexpr :=
  match t with
  | TNum v => Ok (Number v)
  | TSig s => Ok (Signal s)
  | TInfix op l r =>
      res_bind (exec_tree p l) (fun el =>
      res_bind (exec_tree p r) (fun er => execute_infix_op op el er p))
  | TPrefix op t => res_bind (exec_tree p t) (fun e => Ok (execute_prefix_op op e p))
  end.
