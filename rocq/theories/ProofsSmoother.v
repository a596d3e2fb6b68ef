(** * Lemmas about the Rauch-Tung-Striebel smoother *)
From mathcomp Require Import all_ssreflect all_algebra.
From mathcomp Require Import ring zify.
From Verif Require Import Outcome SpecProb SpecMatrix ModelMatrix ProofsMatrix ModelFilter ProofsFilter ModelKalman SpecKalman
  ProofsKalman PropertiesKalman ModelSmoother SpecSmoother.
Set Implicit Arguments. Unset Strict Implicit. Unset Printing Implicit Defensive.
Import Order.TTheory GRing.Theory Num.Theory.
Local Open Scope ring_scope.

(** ** the base class *)
Section Backward.
Variables (D SM U : Type) (internal : option SM -> option U -> D -> D -> outcome (bool * D)).
Implicit Type hf : heap D * filt unit.
Lemma b_updateE hf sm u fp d f b d' : f_post hf = Ok d -> h_get hf.1 fp = Ok f ->
  internal sm u d f = Ok (b, d') ->
  exists hf', [/\ b_update internal hf sm u fp = Ok (b, hf'), f_post hf' = Ok d', hf'.2 = hf.2 &
    forall j, j <> fl_post hf.2 -> h_get hf'.1 j = h_get hf.1 j].
Proof.
move=> hp hq hi; have hl := h_get_lt hp; have [h' hh] := put_at (Some d') hl.
have [h1 h2] := h_get_put hh.
by exists (h', hf.2); rewrite /b_update -/(f_post hf) hp hq /= hi /= hh /=.
Qed.
End Backward.

Section RTS.
Variables (R : realFieldType) (U : Type) (n : nat).
Implicit Types (g : gauss R n) (i : info R n).

Lemma rts_sysE (a : asys R U n) u post filt : supplied a u -> let x := g_mu post in
  let F := jac a u x in let Q := noise a u x in let P := g_cov filt in
  symmetric P -> symmetric (g_cov post) -> symmetric Q -> innov_cov P F Q \in unitmx ->
  let K := gain P F Q in
  rts_sys a u post filt = Ok (Gauss (g_mu filt + K *m (x - val a u (g_mu filt)))
                                    (P - K *m (innov_cov P F Q - g_cov post) *m K^T)).
Proof.
move=> hs x F Q P sP sS sQ hu K.
rewrite /rts_sys am_jacobianE //= am_noiseE //= -/F -/Q /minv -/P -/(innov_cov P F Q) hu /= am_predictE //=.
rewrite -/(gain P F Q) -/K sym_lowerE //.
by apply: symB => //; apply: sym_cong; apply: symB => //; exact: innov_sym.
Qed.

Lemma gain_step (P F Q : 'M[R]_n) m (H : 'M[R]_(m, n)) Rn : symmetric P -> symmetric Q -> innov_cov P F Q \in unitmx ->
  let Pp := innov_cov P F Q in
  [/\ innov_cov P (H *m F) (H *m Q *m H^T + Rn) = innov_cov Pp H Rn,
      gain P F Q *m gain Pp H Rn = gain P (H *m F) (H *m Q *m H^T + Rn) & Pp *m (gain P F Q)^T = F *m P].
Proof.
move=> sP sQ hu Pp.
have e : innov_cov P (H *m F) (H *m Q *m H^T + Rn) = innov_cov Pp H Rn.
  by rewrite /innov_cov /Pp /innov_cov trmx_mul mulmxDr mulmxDl !mulmxA addrA.
split=> //; last exact: SgainT.
by rewrite [gain P (H *m F) _]/gain e {1}/gain /gain trmx_mul !mulmxA -(mulmxA _ (invmx _) Pp) mulVmx // mulmx1.
Qed.

(** smoothing transports any linear information about the successor *)
Lemma rts_learn g (F : 'M[R]_n) b Q i : symmetric (g_cov g) -> symmetric Q ->
  innov_cov (g_cov g) F Q \in unitmx -> 
  let s := learn (moved g F b Q) i in let K := gain (g_cov g) F Q in
  Gauss (g_mu g + K *m (g_mu s - (F *m g_mu g + b))) (g_cov g - K *m (innov_cov (g_cov g) F Q - g_cov s) *m K^T) =
  learn g (through F b Q i).
Proof.
move=> sP sQ hu s K; have [e1 e2 e3] := gain_step (in_H i) (in_R i) sP sQ hu.
rewrite /learn /corrected /= -e2 -/K.
have -> : in_H i *m F *m g_mu g + (in_H i *m b + in_c i) = in_H i *m (F *m g_mu g + b) + in_c i.
  by rewrite mulmxDr !mulmxA addrA.
congr Gauss.
  by rewrite /s /learn /corrected /=; congr (_ + _); rewrite addrAC subrr add0r mulmxA.
rewrite /s /learn /corrected /= -/(innov_cov (g_cov g) F Q); congr (_ - _).
have -> (A B : 'M[R]_n) : A - (A - B) = B by rewrite opprB addrC subrK.
by rewrite -!mulmxA e3.
Qed.

(** ** information *)
Lemma learn_nothing g : learn g nothing = g.
Proof.
case: g => mu P; rewrite /learn /corrected /=.
have -> : gain P (0 : 'M[R]_(0, n)) 0 = 0 by rewrite /gain trmx0 mulmx0 mul0mx.
by rewrite !mul0mx addr0 subr0.
Qed.
Lemma learn_both g i j : psd (g_cov g) -> pd (in_R i) -> pd (in_R j) ->
  learn (learn g i) j = learn g (both i j).
Proof.
move=> hP hi hj.
pose a (k : info R n) : amodel R unit n (in_m k) :=
  AModel true (fun x _ => in_H k *m x + in_c k) (fun _ _ => in_H k) (fun _ _ => in_R k).
have la k : linear_model (a k) by exists (fun _ => in_H k), (fun _ => in_c k), (fun _ => in_R k).
have [ra rb] : pd_noise (a i) /\ pd_noise (a j) by split.
have := @seq_is_stacked R unit n _ _ (a i) (a j) None None (in_z i) (in_z j) (la j) ra rb g hP.
rewrite /learn /both /= mul_col_mx add_col_mx.
exact.
Qed.
Lemma pd_nothing : pd (in_R (@nothing R n)).
Proof. by split=> [|v]; rewrite ?[in_R _]/= ?/symmetric ?trmx0 // [v]flatmx0 eqxx. Qed.
Lemma pd_both i j : pd (in_R i) -> pd (in_R j) -> pd (in_R (both i j)).
Proof. exact: block_pd. Qed.
Lemma pd_through F b Q i : psd Q -> pd (in_R i) -> pd (in_R (through F b Q i)).
Proof. by move=> hQ hi; apply: pdD_psd => //; exact: psd_cong. Qed.
Lemma pd_later (ts : seq (lstep R n)) : (forall t, List.In t ts -> good_step t) -> pd (in_R (later ts)).
Proof.
elim: ts => [_|t ts IH ht]; first exact: pd_nothing.
have [q r] : good_step t by apply: ht; left.
by apply: pd_through; [exact: pd_psd|apply: pd_both => //; apply: IH => k hk; apply: ht; right].
Qed.
Lemma psd_learn g i : psd (g_cov g) -> pd (in_R i) -> psd (g_cov (learn g i)).
Proof. exact: corrected_psd. Qed.
Lemma psd_moved g F b Q : psd (g_cov g) -> psd Q -> psd (g_cov (moved g F b Q)).
Proof. by move=> hP hQ; apply: psdD => //; exact: psd_cong. Qed.
End RTS.
