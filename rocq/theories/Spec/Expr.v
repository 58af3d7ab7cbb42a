(** Formulas over the scalar operations, what they mean over any scalar, and where they are smooth.

    A [ScalarFn] of the library is generic code over [Numeric]; [expr] is the syntax of such code
    without loops: every method of the trait except [clamp] (which can panic and has its own
    theorem), literals, and branching on comparisons. *)
From Coq Require Import ZArith List Reals.
From Verif Require Import Base.Scalar Base.RNum.

Inductive unop :=
  | UNeg | UAbs | USqrt | UCbrt | USin | UCos | UTan | UExp | ULog | UExpm1 | ULn1p | ULog2 | ULog10
  | UFloor | UCeil | URound | UTrunc
  | USignum | UAtan | UAsin | UAcos | USinh | UCosh | UTanh | URecip.
Inductive binop :=
  | BAdd | BSub | BMul | BDiv | BAtan2 | BCopysign
  | BMax | BMin | BHypot | BPowf | BSafeDiv.
Inductive cmpop := CLt | CLe | CEq.

Inductive expr :=
  | EVar (i : nat)
  | ELit (n d : Z)               (* from_f64 of a decimal literal *)
  | EPi
  | EUn (o : unop) (e : expr)
  | EBin (o : binop) (e1 e2 : expr)
  | EMulAdd (e1 e2 e3 : expr)
  | EPowi (e : expr) (n : Z)
  | EIf (c : cmpop) (a b e1 e2 : expr).   (* if a < b { e1 } else { e2 }, and so on *)

Section Eval.
  Context {T : Type} {NT : Num T}.
  Definition eval_un (o : unop) : T -> T :=
    match o with
    | UNeg => neg | UAbs => abs | USqrt => sqrt | UCbrt => cbrt | USin => sin | UCos => cos
    | UTan => tan | UExp => exp | ULog => log | UExpm1 => expm1 | ULn1p => ln_1p | ULog2 => log2
    | ULog10 => log10 | UFloor => floor | UCeil => ceil | URound => round | UTrunc => trunc
    | USignum => signum | UAtan => atan | UAsin => asin | UAcos => acos | USinh => sinh
    | UCosh => cosh | UTanh => tanh | URecip => recip
    end.
  Definition eval_bin (o : binop) : T -> T -> T :=
    match o with
    | BAdd => add | BSub => sub | BMul => mul | BDiv => div | BAtan2 => atan2
    | BCopysign => copysign | BMax => max | BMin => min | BHypot => hypot | BPowf => powf
    | BSafeDiv => safe_div
    end.
  Definition eval_cmp (c : cmpop) : T -> T -> bool :=
    match c with CLt => ltb | CLe => leb | CEq => eqb end.

  Fixpoint eval (env : nat -> T) (e : expr) : T :=
    match e with
    | EVar i => env i
    | ELit n d => of_ratio n d
    | EPi => pi
    | EUn o e => eval_un o (eval env e)
    | EBin o e1 e2 => eval_bin o (eval env e1) (eval env e2)
    | EMulAdd e1 e2 e3 => mul_add (eval env e1) (eval env e2) (eval env e3)
    | EPowi e n => powi (eval env e) n
    | EIf c a b e1 e2 =>
        if eval_cmp c (eval env a) (eval env b) then eval env e1 else eval env e2
    end.
End Eval.

(** Where each operation is differentiable, as a condition on its arguments. *)
Local Open Scope R_scope.
Definition not_integer (v : R) : Prop := forall n : Z, v <> IZR n.
Definition un_ok (o : unop) (v : R) : Prop :=
  match o with
  | UNeg | USin | UCos | UExp | UExpm1 | UAtan | USinh | UCosh | UTanh => True
  | UAbs | UCbrt | USignum | URecip => v <> 0
  | USqrt | ULog | ULog2 | ULog10 => 0 < v
  | UTan => Rtrigo_def.cos v <> 0
  | ULn1p => -1 < v
  | UFloor | UCeil => not_integer v
  | URound => not_integer (v + /2)
  | UTrunc => forall n : Z, v = IZR n -> n = 0%Z
  | UAsin | UAcos => -1 < v < 1
  end.
Definition bin_ok (o : binop) (u v : R) : Prop :=
  match o with
  | BAdd | BSub | BMul => True
  | BDiv | BSafeDiv => v <> 0
  | BAtan2 => 0 < v \/ u <> 0          (* atan2(u, v) away from its cut, the ray v <= 0 = u *)
  | BCopysign => u <> 0 /\ v <> 0
  | BMax | BMin => u <> v
  | BHypot => u <> 0 \/ v <> 0
  | BPowf => 0 < u
  end.

(** The formula is smooth at the point: every operation it performs there is, and no comparison it
    branches on is a tie. *)
Fixpoint smooth (env : nat -> R) (e : expr) : Prop :=
  match e with
  | EVar _ | ELit _ _ | EPi => True
  | EUn o e => smooth env e /\ un_ok o (eval env e)
  | EBin o e1 e2 => smooth env e1 /\ smooth env e2 /\ bin_ok o (eval env e1) (eval env e2)
  | EMulAdd e1 e2 e3 => smooth env e1 /\ smooth env e2 /\ smooth env e3
  | EPowi e n => smooth env e /\ ((n < 0)%Z -> eval env e <> 0)
  | EIf c a b e1 e2 =>
      smooth env a /\ smooth env b /\ eval env a <> eval env b /\
      (if eval_cmp c (eval env a) (eval env b) then smooth env e1 else smooth env e2)
  end.

(** The operations whose body is the same on every implementor of the trait: all but those the
    plain floats override with a library routine of their own (numeric.rs:556-609). *)
Definition un_shared (o : unop) : bool :=
  match o with
  | USignum | UAtan | UAsin | UAcos | USinh | UCosh | UTanh | URecip => false
  | _ => true
  end.
Definition bin_shared (o : binop) : bool :=
  match o with BMax | BMin | BHypot | BPowf => false | _ => true end.
Fixpoint shared (e : expr) : bool :=
  match e with
  | EVar _ | ELit _ _ | EPi => true
  | EUn o e => un_shared o && shared e
  | EBin o e1 e2 => bin_shared o && shared e1 && shared e2
  | EMulAdd _ _ _ => false
  | EPowi e _ => shared e
  | EIf _ a b e1 e2 => shared a && shared b && shared e1 && shared e2
  end%bool.

(** Which of these operations a formula performs, itself or inside a default body of the trait. *)
Inductive feature := Product | Quotient | Absolute | Tangent | OtherLog.
Definition un_uses (o : unop) (f : feature) : bool :=
  match o, f with
  | UAbs, Absolute | UTan, Tangent | (ULog2 | ULog10), OtherLog
  | (UAsin | UAcos | USinh | UCosh | UTanh), Product | (UTanh | URecip), Quotient => true
  | _, _ => false
  end.
Definition bin_uses (o : binop) (f : feature) : bool :=
  match o, f with
  | (BMul | BPowf | BHypot), Product | (BDiv | BSafeDiv | BHypot), Quotient | BHypot, Absolute => true
  | _, _ => false
  end.
Definition powi_uses (n : Z) (f : feature) : bool :=
  match f with Product => negb (n =? 0)%Z | Quotient => (n <? 0)%Z | _ => false end.
Fixpoint uses (e : expr) (f : feature) : bool :=
  match e with
  | EVar _ | ELit _ _ | EPi => false
  | EUn o e => un_uses o f || uses e f
  | EBin o e1 e2 => bin_uses o f || uses e1 f || uses e2 f
  | EMulAdd e1 e2 e3 =>
      match f with Product => true | _ => false end || uses e1 f || uses e2 f || uses e3 f
  | EPowi e n => powi_uses n f || uses e f
  | EIf _ a b e1 e2 => uses a f || uses b f || uses e1 f || uses e2 f
  end%bool.
