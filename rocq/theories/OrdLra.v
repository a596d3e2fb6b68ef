(** * Linear arithmetic over an arbitrary mathcomp [realFieldType]

    Tooling only; nothing in this file models the repository.  It connects the
    micromega certificate checker of the Coq standard library (a verified
    checker) to mathcomp's ordered fields: [lra] and [nra] below reify the
    (in)equalities found in the context, ask micromega for a certificate, and
    replay it through [lra_sound], which is proved here.  No axioms. *)
From Coq Require Import ZArith QArith List.
From Coq.micromega Require Import OrderedRing RingMicromega EnvRing VarMap Tauto QMicromega.
From Coq.micromega Require Import Lqa.
From mathcomp Require Import all_ssreflect all_algebra.
Set Implicit Arguments. Unset Strict Implicit. Unset Printing Implicit Defensive.
Import Order.TTheory GRing.Theory Num.Theory.
Local Open Scope ring_scope.

Section Sound.
Variable R : realFieldType.

Definition p2r (p : positive) : R := (Pos.to_nat p)%:R.
Definition z2r (z : Z) : R :=
  match z with Z0 => 0 | Zpos p => p2r p | Zneg p => - p2r p end.
Definition q2r (q : Q) : R := z2r (Qnum q) / p2r (Qden q).

Lemma p2r_gt0 p : 0 < p2r p.
Proof. rewrite /p2r ltr0n; exact/ssrnat.ltP/Pos2Nat.is_pos. Qed.
Lemma p2r_neq0 p : p2r p != 0. Proof. by rewrite gt_eqF ?p2r_gt0. Qed.
Lemma p2rD p q : p2r (p + q) = p2r p + p2r q.
Proof. by rewrite /p2r Pos2Nat.inj_add plusE natrD. Qed.
Lemma p2rM p q : p2r (p * q) = p2r p * p2r q.
Proof. by rewrite /p2r Pos2Nat.inj_mul multE natrM. Qed.
Lemma z2r_pos_sub p q : z2r (Z.pos_sub p q) = p2r p - p2r q.
Proof.
case: (Pos.lt_total p q) => [hlt|[->|hgt]].
- rewrite (Z.pos_sub_lt p q hlt) /= -{2}(Pos.sub_add q p hlt) p2rD.
  by rewrite opprD addrCA subrr addr0.
- by rewrite Z.pos_sub_diag subrr.
- by rewrite (Z.pos_sub_gt p q hgt) /= -{2}(Pos.sub_add p q hgt) p2rD addrK.
Qed.
Lemma z2rD x y : z2r (Z.add x y) = z2r x + z2r y.
Proof.
case: x => [|p|p]; case: y => [|q|q] //=; rewrite ?add0r ?addr0 ?p2rD ?z2r_pos_sub ?opprD //.
by rewrite addrC.
Qed.
Lemma z2rM x y : z2r (Z.mul x y) = z2r x * z2r y.
Proof. by case: x => [|p|p]; case: y => [|q|q] //=; rewrite ?mul0r ?mulr0 ?p2rM ?mulrN ?mulNr ?opprK. Qed.
Lemma z2rN x : z2r (Z.opp x) = - z2r x.
Proof. by case: x => [|p|p] //=; rewrite ?oppr0 ?opprK. Qed.
Lemma z2r_ge0 x : Z.le Z0 x -> 0 <= z2r x.
Proof. case: x => [|p|p] //= h; exact/ltW/p2r_gt0. Qed.
Lemma z2r_le x y : Z.le x y -> z2r x <= z2r y.
Proof. move=> h; rewrite -subr_ge0 -z2rN -z2rD; apply: z2r_ge0; by apply Zle_minus_le_0. Qed.
Lemma z2r_eq0 x : z2r x = 0 -> x = Z0.
Proof.
case: x => [|p|p] //= h; have := p2r_neq0 p; first by rewrite h eqxx.
by move/eqP: h; rewrite oppr_eq0 => /eqP ->; rewrite eqxx.
Qed.
Lemma z2r_inj x y : z2r x = z2r y -> x = y.
Proof.
move=> h; apply: Zminus_eq; apply: z2r_eq0; by rewrite z2rD z2rN h subrr.
Qed.

Lemma q2r_eq x y : Qeq x y -> q2r x = q2r y.
Proof.
rewrite /Qeq /q2r => h; apply/eqP; rewrite eqr_div ?p2r_neq0 //; apply/eqP.
have := f_equal z2r h; rewrite !z2rM /=; exact.
Qed.
Lemma q2r_inj x y : q2r x = q2r y -> Qeq x y.
Proof.
rewrite /Qeq /q2r => /eqP; rewrite eqr_div ?p2r_neq0 // => /eqP h.
apply: z2r_inj; rewrite !z2rM; exact: h.
Qed.
Lemma q2r_le x y : Qle x y -> q2r x <= q2r y.
Proof.
rewrite /Qle /q2r => /z2r_le; rewrite !z2rM /= => h.
by rewrite ler_pdivr_mulr ?p2r_gt0 // mulrAC ler_pdivl_mulr ?p2r_gt0.
Qed.
Lemma q2rD x y : q2r (Qplus x y) = q2r x + q2r y.
Proof. by rewrite /q2r /= z2rD !z2rM p2rM addf_div ?p2r_neq0. Qed.
Lemma q2rM x y : q2r (Qmult x y) = q2r x * q2r y.
Proof. by rewrite /q2r /= z2rM p2rM mulf_div. Qed.
Lemma q2rN x : q2r (Qopp x) = - q2r x.
Proof. by rewrite /q2r /= z2rN mulNr. Qed.

Lemma Rsor : @SOR R 0 1 +%R *%R (fun x y => x - y) -%R (@eq R)
  (fun x y => is_true (x <= y)) (fun x y => is_true (x < y)).
Proof.
constructor; try by move=> *; subst.
- exact: RelationClasses.eq_equivalence.
- constructor; [exact: add0r|exact: addrC|exact: addrA|exact: mul1r|exact: mulrC|exact: mulrA
   |exact: mulrDl|by []|exact: subrr].
- by move=> n m h1 h2; apply/eqP; rewrite eq_le h1 h2.
- by move=> n m p; apply: le_trans.
- move=> n m; rewrite lt_neqAle; split; [case/andP => /eqP ? ?; by split|by case=> -> /eqP ->].
- by move=> n m; case: (ltrgtP n m) => h; [left|right; right|right; left].
- by move=> n m p h; rewrite ler_add2l.
- by move=> n m; apply: mulr_gt0.
- move=> h; have := oner_neq0 R; by rewrite -h eqxx.
Qed.

Definition rpow (x : R) (n : N) : R := pow_N 1 *%R x n.

Lemma Raddon : @SORaddon R 0 1 +%R *%R (fun x y => x - y) -%R (@eq R)
  (fun x y => is_true (x <= y)) Q (Qmake Z0 1) (Qmake 1 1) Qplus Qmult Qminus Qopp Qeq_bool Qle_bool
  q2r N (fun x => x) rpow.
Proof.
constructor.
- constructor.
  + by rewrite /q2r /= mul0r.
  + by rewrite /q2r /= divff ?p2r_neq0.
  + exact: q2rD.
  + by move=> x y; rewrite /Qminus q2rD q2rN.
  + exact: q2rM.
  + exact: q2rN.
  + by move=> x y h; apply: q2r_eq; apply Qeq_bool_eq.
- constructor; by [].
- by move=> x y h /q2r_inj; apply Qeq_bool_neq.
- by move=> x y h; apply: q2r_le; apply Qle_bool_imp_le.
Qed.

(** Reified syntax, whose evaluation is convertible to the source terms. *)
Inductive rexpr : Type :=
| RV of positive | RO | RI | RAdd of rexpr & rexpr | ROpp of rexpr
| RMul of rexpr & rexpr | RNat of nat | RNatmul of rexpr & nat
| RInvN of nat | RExp of rexpr & nat.

Fixpoint reval (env : positive -> R) (e : rexpr) : R :=
  match e with
  | RV p => env p | RO => 0 | RI => 1
  | RAdd a b => reval env a + reval env b
  | ROpp a => - reval env a
  | RMul a b => reval env a * reval env b
  | RNat n => n%:R
  | RNatmul a n => reval env a *+ n
  | RInvN n => (n%:R)^-1
  | RExp a n => reval env a ^+ n
  end.

Definition qnat (n : nat) : Q := Qmake (Z.of_nat n) 1.
Definition qinv (n : nat) : Q :=
  match n with O => Qmake Z0 1 | S m => Qmake 1 (Pos.of_succ_nat m) end.

Fixpoint topexpr (e : rexpr) : PExpr Q :=
  match e with
  | RV p => PEX p | RO => PEc (Qmake Z0 1) | RI => PEc (Qmake 1 1)
  | RAdd a b => PEadd (topexpr a) (topexpr b)
  | ROpp a => PEopp (topexpr a)
  | RMul a b => PEmul (topexpr a) (topexpr b)
  | RNat n => PEc (qnat n)
  | RNatmul a n => PEmul (PEc (qnat n)) (topexpr a)
  | RInvN n => PEc (qinv n)
  | RExp a n => PEpow (topexpr a) (N.of_nat n)
  end.

Definition peval (env : positive -> R) : PExpr Q -> R :=
  eval_pexpr +%R *%R (fun x y => x - y) -%R q2r (fun x => x) rpow env.

Lemma q2r_nat n : q2r (qnat n) = n%:R.
Proof.
rewrite /q2r /qnat /=; case: n => [|n] /=; first by rewrite mul0r.
by rewrite /p2r SuccNat2Pos.id_succ invr1 mulr1.
Qed.
Lemma q2r_inv n : q2r (qinv n) = (n%:R)^-1.
Proof.
rewrite /q2r /qinv; case: n => [|n] /=; first by rewrite mul0r invr0.
by rewrite /p2r SuccNat2Pos.id_succ mul1r.
Qed.
Lemma rpowE x n : rpow x (N.of_nat n) = x ^+ n.
Proof.
rewrite /rpow; case: n => [|n] //=.
rewrite -(SuccNat2Pos.id_succ n); move: (Pos.of_succ_nat n) => p; clear n.
elim: p => [p ih|p ih|] //=.
- rewrite ih Pos2Nat.inj_xI exprS; congr (_ * _); by rewrite multE mul2n -addnn exprD.
- rewrite ih Pos2Nat.inj_xO; by rewrite multE mul2n -addnn exprD.
Qed.

Lemma pevalE env e : peval env (topexpr e) = reval env e.
Proof.
elim: e => //= [||a <- b <-|a <-|a <- b <-|n|a <- n|n|a <- n] //.
- by rewrite /peval /= /q2r /= mul0r.
- by rewrite /peval /= /q2r /= divff ?p2r_neq0.
- by rewrite /peval /= q2r_nat.
- by rewrite /peval /= q2r_nat mulr_natl.
- by rewrite /peval /= q2r_inv.
- by rewrite /peval /= rpowE.
Qed.

Inductive rform : Type := FLe of rexpr & rexpr | FLt of rexpr & rexpr | FEq of rexpr & rexpr.

Definition feval env (f : rform) : Prop :=
  match f with
  | FLe a b => is_true (reval env a <= reval env b)
  | FLt a b => is_true (reval env a < reval env b)
  | FEq a b => reval env a = reval env b
  end.

Definition toform (f : rform) : Formula Q :=
  match f with
  | FLe a b => Build_Formula (topexpr a) OpLe (topexpr b)
  | FLt a b => Build_Formula (topexpr a) OpLt (topexpr b)
  | FEq a b => Build_Formula (topexpr a) OpEq (topexpr b)
  end.

Fixpoint eval_impl env (fs : list rform) : Prop :=
  match fs with
  | nil => False
  | cons f fs => feval env f -> eval_impl env fs
  end.

Fixpoint tobf (fs : list rform) : BFormula (Formula Q) isProp :=
  match fs with
  | nil => FF isProp
  | cons f fs => IMPL (A isProp (toform f) tt) None (tobf fs)
  end.

Definition Reval_formula env (k : kind) (f : Formula Q) : rtyp k :=
  match k with
  | isProp => eval_formula +%R *%R (fun x y => x - y) -%R (@eq R)
      (fun x y => is_true (x <= y)) (fun x y => is_true (x < y)) q2r (fun x => x) rpow env f
  | isBool =>
     let e := peval env in
     match Fop f with
     | OpEq => e (Flhs f) == e (Frhs f)
     | OpNEq => e (Flhs f) != e (Frhs f)
     | OpLe => e (Flhs f) <= e (Frhs f)
     | OpGe => e (Frhs f) <= e (Flhs f)
     | OpLt => e (Flhs f) < e (Frhs f)
     | OpGt => e (Frhs f) < e (Flhs f)
     end
  end.

Lemma Reval_formula_compat env b f :
  hold b (Reval_formula env b f) <->
  eval_formula +%R *%R (fun x y => x - y) -%R (@eq R)
      (fun x y => is_true (x <= y)) (fun x y => is_true (x < y)) q2r (fun x => x) rpow env f.
Proof.
case: b => //=; case: f => l o r; case: o => /=; rewrite ?/is_true -/(peval env) //.
- by split => /eqP.
- by split => /eqP.
Qed.

Lemma Rchecker_sound f w : QTautoChecker f w = true ->
  forall env, eval_bf (Reval_formula env) f.
Proof.
rewrite /QTautoChecker.
apply tauto_checker_sound with (eval := Reval_formula) (eval' :=
  (fun env => eval_nformula 0 +%R *%R (@eq R) (fun x y => is_true (x <= y)) (fun x y => is_true (x < y)) q2r env)).
- move=> env d; exact: (eval_nformula_dec Rsor q2r env d).
- move=> t h env; case: t h => p o h; exact: (check_inconsistent_sound Rsor Raddon p o h env).
- rewrite /qdeduce; intros; match goal with H : _ = Some _ |- _ => revert H end; by apply (nformula_plus_nformula_correct Rsor Raddon).
- intros; rewrite Reval_formula_compat; by eapply (cnf_normalise_correct Rsor Raddon); eauto.
- intros; rewrite Tauto.hold_eNOT Reval_formula_compat; by eapply (cnf_negate_correct Rsor Raddon); eauto.
- intros t w0; rewrite /eval_tt => h env.
  rewrite -> Refl.make_impl_map with (eval := eval_nformula 0 +%R *%R (@eq R) (fun x y => is_true (x <= y)) (fun x y => is_true (x < y)) q2r env).
  + by eapply (checker_nf_sound Rsor Raddon); exact: h.
  + by [].
Qed.

Lemma tobf_sound env fs : eval_bf (Reval_formula env) (tobf fs) -> eval_impl env fs.
Proof.
elim: fs => [|f fs ih] //= h hf; apply: ih; apply: h.
by case: f hf => a b /=; rewrite -!pevalE.
Qed.

Lemma lra_sound env fs w : QTautoChecker (tobf fs) w = true -> eval_impl env fs.
Proof. move=> h; apply: tobf_sound; exact: Rchecker_sound h env. Qed.

Fixpoint lookup (l : list R) (p : positive) : R :=
  match l with
  | nil => 0
  | cons x l => match p with xH => x | _ => lookup l (Pos.pred p) end
  end.
End Sound.

(** Normalising one hypothesis or goal into the three supported relations. *)
Section Norm.
Variable R : realFieldType.
Implicit Types x y : R.
Lemma lra_nle x y : ~~ (x <= y) -> y < x. Proof. by rewrite -ltNge. Qed.
Lemma lra_nlt x y : ~~ (x < y) -> y <= x. Proof. by rewrite -leNgt. Qed.
Lemma lra_lef x y : (x <= y) = false -> y < x. Proof. by move/negbT/lra_nle. Qed.
Lemma lra_ltf x y : (x < y) = false -> y <= x. Proof. by move/negbT/lra_nlt. Qed.
Lemma lra_eqb x y : (x == y) -> x = y. Proof. by move/eqP. Qed.
Lemma lra_gle x y : (y < x -> False) -> x <= y.
Proof. by move=> h; rewrite leNgt; apply/negP. Qed.
Lemma lra_glt x y : (y <= x -> False) -> x < y.
Proof. by move=> h; rewrite ltNge; apply/negP. Qed.
Lemma lra_geq x y : x <= y -> y <= x -> x = y.
Proof. by move=> h1 h2; apply/eqP; rewrite eq_le h1 h2. Qed.
Lemma lra_geqb x y : x <= y -> y <= x -> x == y.
Proof. by move=> h1 h2; rewrite eq_le h1 h2. Qed.
Lemma lra_gne_l x y : x < y -> x != y. Proof. by move=> h; rewrite lt_eqF. Qed.
Lemma lra_gne_r x y : y < x -> x != y. Proof. by move=> h; rewrite gt_eqF. Qed.
Lemma lra_gnle x y : y < x -> (x <= y) = false. Proof. by move=> h; apply/negbTE; rewrite -ltNge. Qed.
Lemma lra_gnlt x y : y <= x -> (x < y) = false. Proof. by move=> h; apply/negbTE; rewrite -leNgt. Qed.
End Norm.

Ltac lra_mem x l :=
  lazymatch l with
  | nil => false
  | cons ?y ?l' => match x with _ => let _ := match goal with _ => constr_eq x y end in true | _ => lra_mem x l' end
  end.
Ltac lra_idx x l :=
  lazymatch l with
  | cons ?y ?l' =>
    match x with
    | _ => let _ := match goal with _ => constr_eq x y end in constr:(xH)
    | _ => let p := lra_idx x l' in constr:(Pos.succ p)
    end
  end.
Ltac lra_add x l := match lra_mem x l with true => l | false => constr:(cons x l) end.

Ltac lra_isnat n :=
  lazymatch n with O => true | S ?m => lra_isnat m | _ => false end.

(* gather atoms *)
Ltac lra_atoms e l :=
  lazymatch e with
  | @GRing.add _ ?a ?b => let l := lra_atoms a l in lra_atoms b l
  | @GRing.mul _ ?a ?b => let l := lra_atoms a l in lra_atoms b l
  | @GRing.opp _ ?a => lra_atoms a l
  | @GRing.zero _ => l
  | @GRing.one _ => l
  | @GRing.inv _ (@GRing.natmul _ (@GRing.one _) ?n) =>
     lazymatch lra_isnat n with true => l | false => lra_add e l end
  | @GRing.natmul _ (@GRing.one _) ?n =>
     lazymatch lra_isnat n with true => l | false => lra_add e l end
  | @GRing.natmul _ ?a ?n =>
     lazymatch lra_isnat n with true => lra_atoms a l | false => lra_add e l end
  | @GRing.exp _ ?a ?n =>
     lazymatch lra_isnat n with true => lra_atoms a l | false => lra_add e l end
  | _ => lra_add e l
  end.

Ltac lra_var e l := let p := lra_idx e l in let p := eval vm_compute in p in constr:(RV p).
Ltac lra_reify e l :=
  lazymatch e with
  | @GRing.add _ ?a ?b => let a := lra_reify a l in let b := lra_reify b l in constr:(RAdd a b)
  | @GRing.mul _ ?a ?b => let a := lra_reify a l in let b := lra_reify b l in constr:(RMul a b)
  | @GRing.opp _ ?a => let a := lra_reify a l in constr:(ROpp a)
  | @GRing.zero _ => constr:(RO)
  | @GRing.one _ => constr:(RI)
  | @GRing.inv _ (@GRing.natmul _ (@GRing.one _) ?n) =>
     lazymatch lra_isnat n with true => constr:(RInvN n) | false => lra_var e l end
  | @GRing.natmul _ (@GRing.one _) ?n =>
     lazymatch lra_isnat n with true => constr:(RNat n) | false => lra_var e l end
  | @GRing.natmul _ ?a ?n =>
     lazymatch lra_isnat n with
     | true => let a := lra_reify a l in constr:(RNatmul a n) | false => lra_var e l end
  | @GRing.exp _ ?a ?n =>
     lazymatch lra_isnat n with
     | true => let a := lra_reify a l in constr:(RExp a n) | false => lra_var e l end
  | _ => lra_var e l
  end.

Ltac lra_gatoms g l :=
  lazymatch g with
  | is_true (@Order.le _ _ ?x ?y) -> ?h => let l := lra_atoms x l in let l := lra_atoms y l in lra_gatoms h l
  | is_true (@Order.lt _ _ ?x ?y) -> ?h => let l := lra_atoms x l in let l := lra_atoms y l in lra_gatoms h l
  | @eq _ ?x ?y -> ?h => let l := lra_atoms x l in let l := lra_atoms y l in lra_gatoms h l
  | _ => l
  end.
Ltac lra_greify g l :=
  lazymatch g with
  | is_true (@Order.le _ _ ?x ?y) -> ?h =>
     let x := lra_reify x l in let y := lra_reify y l in let r := lra_greify h l in constr:(cons (FLe x y) r)
  | is_true (@Order.lt _ _ ?x ?y) -> ?h =>
     let x := lra_reify x l in let y := lra_reify y l in let r := lra_greify h l in constr:(cons (FLt x y) r)
  | @eq _ ?x ?y -> ?h =>
     let x := lra_reify x l in let y := lra_reify y l in let r := lra_greify h l in constr:(cons (FEq x y) r)
  | _ => constr:(@nil rform)
  end.

Ltac lra_split :=
  repeat match goal with
  | H : is_true (_ && _) |- _ => move/andP: H => [? ?]
  | H : (_ /\ _) |- _ => case: H => ? ?
  | H : is_true (~~ (@Order.le _ _ _ _)) |- _ => apply lra_nle in H
  | H : is_true (~~ (@Order.lt _ _ _ _)) |- _ => apply lra_nlt in H
  | H : (@Order.le _ _ _ _) = false |- _ => apply lra_lef in H
  | H : (@Order.lt _ _ _ _) = false |- _ => apply lra_ltf in H
  | H : (@Order.le _ _ _ _) = true |- _ => change (is_true (_ <= _)%R) in H
  | H : is_true (@eq_op _ _ _) |- _ => apply lra_eqb in H
  end.

Ltac lra_typ R T := first [ unify (GRing.Field.sort (Num.RealField.fieldType R)) T | unify (Num.RealField.sort R) T ].

Ltac lra_revert R :=
  repeat match goal with
  | H : is_true (@Order.le _ _ ?x ?y) |- _ => let T := type of x in lra_typ R T; revert H
  | H : is_true (@Order.lt _ _ ?x ?y) |- _ => let T := type of x in lra_typ R T; revert H
  | H : @eq ?T ?x ?y |- _ => lra_typ R T; revert H
  end.

(** Different canonical paths to the carrier are made syntactically equal. *)
Ltac rnorm1 s t :=
  repeat match goal with |- context [s] => change s with t end.
Ltac rnormR R :=
  let t := constr:(Num.RealField.sort R) in
  rnorm1 (GRing.Zmodule.sort (Num.RealField.zmodType R)) t;
  rnorm1 (GRing.Ring.sort (Num.RealField.ringType R)) t;
  rnorm1 (GRing.UnitRing.sort (Num.RealField.unitRingType R)) t;
  rnorm1 (GRing.ComRing.sort (Num.RealField.comRingType R)) t;
  rnorm1 (GRing.ComUnitRing.sort (Num.RealField.comUnitRingType R)) t;
  rnorm1 (GRing.IntegralDomain.sort (Num.RealField.idomainType R)) t;
  rnorm1 (GRing.Field.sort (Num.RealField.fieldType R)) t;
  rnorm1 (Num.NumDomain.sort (Num.RealField.numDomainType R)) t;
  rnorm1 (Num.NumField.sort (Num.RealField.numFieldType R)) t;
  rnorm1 (Num.RealDomain.sort (Num.RealField.realDomainType R)) t;
  rnorm1 (Order.POrder.sort (Num.RealField.porderType R)) t;
  rnorm1 (Equality.sort (Num.RealField.eqType R)) t;
  rnorm1 (Choice.sort (Num.RealField.choiceType R)) t.
Ltac rnormA1 s t :=
  repeat match goal with
  | |- context [s] => change s with t
  | H : context [s] |- _ => change s with t in H
  end.
Ltac rnorm := match goal with R : realFieldType |- _ =>
  let t := constr:(Num.RealField.sort R) in
  rnormA1 (GRing.Zmodule.sort (Num.RealField.zmodType R)) t;
  rnormA1 (GRing.Ring.sort (Num.RealField.ringType R)) t;
  rnormA1 (GRing.Field.sort (Num.RealField.fieldType R)) t;
  rnormA1 (Num.NumDomain.sort (Num.RealField.numDomainType R)) t;
  rnormA1 (Order.POrder.sort (Num.RealField.porderType R)) t;
  rnormA1 (Equality.sort (Num.RealField.eqType R)) t end.

Ltac lra_core wit R :=
  lra_split; lra_revert R; rnormR R;
  lazymatch goal with
  | |- ?g =>
    let T := constr:(Num.RealField.sort R) in
    let l := lra_gatoms g (@nil T) in
    let fs := lra_greify g l in
    let bf := eval vm_compute in (tobf fs) in
    let w := fresh "w" in
    wit w bf;
    let wv := eval unfold w in w in
    clear w;
    refine (@lra_sound R (lookup l) fs wv _); vm_compute; reflexivity
  end.

Ltac lra_False wit :=
  match goal with
  | H : is_true (@Order.lt _ (Num.RealField.porderType ?R) _ _) |- False => lra_core wit R
  | H : is_true (@Order.le _ (Num.RealField.porderType ?R) _ _) |- False => lra_core wit R
  | H : @eq (Num.RealField.sort ?R) _ _ |- False => lra_core wit R
  end.

Ltac lra_goal wit :=
  intros;
  lazymatch goal with
  | |- False => lra_split; lra_False wit
  | |- ~ _ => intro; lra_goal wit
  | |- is_true (_ && _) => apply/andP; split; lra_goal wit
  | |- _ /\ _ => split; lra_goal wit
  | |- is_true (@Order.le _ _ _ _) => apply lra_gle; intro; lra_False wit
  | |- is_true (@Order.lt _ _ _ _) => apply lra_glt; intro; lra_False wit
  | |- (@Order.le _ _ _ _) = true => apply lra_gle; intro; lra_False wit
  | |- (@Order.lt _ _ _ _) = true => apply lra_glt; intro; lra_False wit
  | |- (@Order.le _ _ _ _) = false => apply lra_gnle; lra_goal wit
  | |- (@Order.lt _ _ _ _) = false => apply lra_gnlt; lra_goal wit
  | |- is_true (~~ (@Order.le _ _ _ _)) => rewrite -ltNge; lra_goal wit
  | |- is_true (~~ (@Order.lt _ _ _ _)) => rewrite -leNgt; lra_goal wit
  | |- is_true (@eq_op _ _ _) => apply lra_geqb; lra_goal wit
  | |- is_true (~~ (@eq_op _ _ _)) => first [ apply lra_gne_r; solve [lra_goal wit] | apply lra_gne_l; lra_goal wit]
  | |- @eq _ _ _ => first [ apply lra_geq | exfalso ]; lra_goal wit
  | |- _ => exfalso; lra_goal wit
  end.

Ltac lra_wl w f := wlra_Q w f.
Ltac lra_wn w f := wnra_Q w f.
Ltac lra := lra_goal lra_wl.
Ltac nra := lra_goal lra_wn.
