(** * C108: the uniform pdf in doubles *)
From Coq Require Import ZArith Reals Lra Lia.
From Flocq Require Import Core.Core BinarySingleNaN.
From mathcomp Require Import all_ssreflect.
From Verif Require Import Outcome ModelDouble SpecDouble ProofsDouble PropertiesDouble ProofsDoubleHist ProofsDoubleKF ModelDoubleUni SpecDoubleUni ProofsDoubleUni.
Set Implicit Arguments. Unset Strict Implicit. Unset Printing Implicit Defensive.
Local Open Scope R_scope.
Local Opaque d0 d1 dprec dlit dadd dsub dmul ddiv dle dlt bpow IZR.
Local Notation eps := (/ IZR (2 ^ 53)).

(** a centre and a width of different sizes are refused *)
Theorem C108_sizes c w : size c <> size w -> n_new c w = Abort.
Proof. by move=> h; rewrite /n_new; case: eqP. Qed.

(** C108: the borders are the centre minus and plus half the width, each with one rounding, and the
    centre lies between them *)
Theorem C108_borders c w : box_ok c w -> exists d, [/\ n_new c w = Ok d, size (un_lo d) = size c, size (un_hi d) = size c &
  forall i, (i < size c)%N -> let C := v2R (nth d0 c i) in let W := v2R (nth d0 w i) in
    let L := v2R (nth d0 (un_lo d) i) in let H := v2R (nth d0 (un_hi d) i) in
    [/\ is_finite (nth d0 (un_lo d) i) = true, is_finite (nth d0 (un_hi d) i) = true,
        Rabs (L - (C - W / 2)) <= eps * Rabs (C - W / 2), Rabs (H - (C + W / 2)) <= eps * Rabs (C + W / 2) & L <= C <= H]].
Proof.
move=> [hs hb]; rewrite /n_new hs eqxx; eexists; split; first by reflexivity.
- by rewrite size_map size1_zip // hs.
- by rewrite size_map size1_zip // hs.
move=> i hi; have [hc hw] := hb i ltac:(by rewrite hs).
have hz : (i < size (zip c w))%N by rewrite size1_zip hs.
rewrite /= !(nth_map (d0, d0)) // nth_zip //= -uu_val.
have [f1 f2 _ _] := border hc hw; have [e1 e2 h] := border_err hc hw.
by split; [exact: f1|exact: f2|exact: e1|exact: e2|exact: h].
Qed.
(** C108: CenterGet and WidthGet give back the arguments of the constructor up to rounding *)
Theorem C108_read_back c w d : box_ok c w -> n_new c w = Ok d ->
  size (n_center d) = size c /\ size (n_width d) = size c /\
  forall i, (i < size c)%N -> let C := v2R (nth d0 c i) in let W := v2R (nth d0 w i) in
    Rabs (v2R (nth d0 (n_center d) i) - C) <= eps * (31 / 10 * Rabs C + W) /\
    Rabs (v2R (nth d0 (n_width d) i) - W) <= 21 / 10 * eps * (Rabs C + W).
Proof.
move=> [hs hb]; rewrite /n_new hs eqxx => -[<-]; rewrite /n_center /n_width /= !zip_maps !size_map size1_zip ?hs //.
split; [reflexivity|split; [reflexivity|]] => i hi; have [hc hw] := hb i ltac:(by rewrite hs).
have hz : (i < size (zip c w))%N by rewrite size1_zip hs.
rewrite -!map_comp !(nth_map (d0, d0)) // nth_zip //= -uu_val.
by split; [exact: (proj2 (center_back hc hw))|exact: (proj2 (width_back hc hw))].
Qed.
(** C108: the height times the volume is one, up to one rounding per coordinate *)
Theorem C108_height c w d : box_ok c w -> volume_ok w -> n_new c w = Ok d ->
  [/\ is_finite (un_h d) = true, 0 < v2R (un_h d) & Rabs (v2R (un_h d) * volume w - 1) <= 101 / 100 * INR (size w) * eps].
Proof.
move=> [hs hb] [hn hv]; rewrite /n_new hs eqxx => -[<-]; rewrite [un_h _]/=.
have hu := uu_lt; have n0 := pos_INR (size w).
have hn' : INR (0 + size w) * uu <= / 200.
  rewrite add0n; apply: Rle_trans (_ : IZR (2 ^ 45) * uu <= _); first by apply: Rmult_le_compat_r; lra.
  by have -> : IZR (2 ^ 45) = bpow radix2 45 by []; rewrite Rmult_comm uu_pow //; have -> : bpow radix2 (45 - 53) = / 256 by []; lra.
have hw : forall i, (i < size w)%N -> 0 < v2R (nth d0 w i) by move=> i hi; apply: width_pos; apply: (proj2 (hb i _)); rewrite hs.
have [f1 e1] : is_finite d1 = true /\ v2R d1 = 1 by split; [|exact: v2R1].
have a0 : approx 0 1 (v2R d1) by rewrite e1; apply: ap_refl; lra.
have [|f ap] := div_fold f1 Rlt_0_1 a0 hn' hw; first by move=> j hj; rewrite /Rdiv Rmult_1_l; exact: hv.
have vp : 0 < / volume w by have := hv (size w) (leqnn _); rewrite take_size => -[h _]; apply: Rlt_le_trans h; exact: bpow_gt_0.
rewrite /Rdiv Rmult_1_l add0n in ap hn'; have h0 := ap_gt0 vp ap; split; [exact: f|exact: h0|].
have er := @ap_err (size w) (/ volume w) _ ltac:(lra) ap.
have vn : 0 < volume w by rewrite -[volume w]Rinv_inv; exact: Rinv_0_lt_compat.
have -> : v2R (foldl ddiv d1 w) * volume w - 1 = (v2R (foldl ddiv d1 w) - / volume w) * volume w by field; lra.
rewrite Rabs_mult (Rabs_pos_eq (volume w)); last lra.
apply: Rle_trans (_ : / volume w * (INR (size w) * uu / (1 - INR (size w) * uu)) * volume w <= _).
  by apply: Rmult_le_compat_r; [lra|exact: er].
have -> : / volume w * (INR (size w) * uu / (1 - INR (size w) * uu)) * volume w = INR (size w) * uu * / (1 - INR (size w) * uu) by field; lra.
rewrite -uu_val; have -> : 101 / 100 * INR (size w) * uu = INR (size w) * uu * (101 / 100) by ring.
apply: Rmult_le_compat_l; first by apply: Rmult_le_pos; lra.
by have -> : 101 / 100 = / (100 / 101) by [field]; apply: Rinv_le; lra.
Qed.
(** C108: the density is the height on the closed box of the borders and zero elsewhere *)
Theorem C108_density c w d x : box_ok c w -> volume_ok w -> n_new c w = Ok d -> size x = size c -> all_finite x ->
  (in_box (un_lo d) (un_hi d) x -> n_prob d x = Ok (un_h d)) /\ (~ in_box (un_lo d) (un_hi d) x -> n_prob d x = Ok d0).
Proof.
move=> hb hv en hx fx; have [fh h0 _] := C108_height hb hv en.
have [d' []] := C108_borders hb; rewrite en => -[<-] s1 s2 hd.
have [|||b [eb hb']] := @inside_yes (un_lo d) (un_hi d) x; [by rewrite s1 s2|by rewrite hx s1| |].
  move=> i hi; have [f1 f2 _ _ _] := hd i ltac:(by rewrite -hx).
  by split; [exact: f1|exact: f2|exact: fx].
have p1 : d_prob (un_h d) = Ok (un_h d).
  by rewrite /d_prob fh; have f0 : is_finite d0 = true by []; case: (dleP f0 fh) => //; rewrite v2R0; lra.
have p0 : d_prob d0 = Ok d0.
  by rewrite /d_prob; have f0 : is_finite d0 = true by []; rewrite f0; case: (dleP f0 f0) => //; rewrite v2R0; lra.
rewrite /n_prob eb bindE; split=> h.
  have -> : b = true by apply/(proj2 hb').
  exact: p1.
have -> : b = false by case: b hb' {eb} => // hb'; case: h; exact: (proj1 hb').
exact: p0.
Qed.
(** C108: SampleFrom never aborts; whatever it returns lies in the box, below the upper border,
    near the point of one of the outputs of the generator, and has positive density *)
Theorem C108_sample c w d ks : box_ok c w -> volume_ok w -> n_new c w = Ok d -> outputs_ok ks ->
  exists r, n_sample d ks = Ok r /\
  forall x ks', r = Some (x, ks') -> [/\ size x = size c, n_prob d x = Ok (un_h d) &
    forall i, (i < size c)%N -> let C := v2R (nth d0 c i) in let W := v2R (nth d0 w i) in
    [/\ is_finite (nth d0 x i) = true, v2R (nth d0 (un_lo d) i) <= v2R (nth d0 x i) < v2R (nth d0 (un_hi d) i)
      & exists2 k, List.In k ks &
        Rabs (v2R (nth d0 x i) - (C - W / 2 + IZR k / IZR (2 ^ 32) * W)) <= 8 * eps * (Rabs C + W)]].
Proof.
move=> hb hv en hk; have es := new_sides en; have hs := proj1 hb; rewrite /n_sample es.
have [r er] := fill_ok ks (sides_ok hb); exists r; split=> // x ks' e; rewrite e in er.
have [sx hx] := fill_some (sides_ok hb) hk er; rewrite (sides_size hs) in sx hx.
have [d' []] := C108_borders hb; rewrite en => -[<-] s1 s2 hd.
have hx' : forall i, (i < size c)%N -> good_pick ks (nth d0 (un_lo d) i, nth d0 (un_hi d) i) (nth d0 x i).
  by move=> i hi; have := hx i hi; rewrite -es nth_zip // s1 s2.
split; first exact: sx.
  apply: (proj1 (C108_density hb hv en sx _)).
    by move=> i; rewrite sx => hi; have [f _ _] := hx' i hi.
  by move=> i; rewrite sx => hi; have [_ h _] := hx' i hi; move: h; rewrite /=; lra.
move=> i hi; cbv zeta; have [f h _] := hx' i hi; split; [exact: f|exact: h|].
have [_ _ [k k1 k2]] := hx i hi; rewrite sides_nth // in k2; have [hc hw] := proj2 hb i hi.
by exists k; [exact: k1|rewrite -uu_val; exact: (point_err hc hw (hk k k1) k2)].
Qed.
(** C108: if no centre is above 2^16 widths, SampleFrom takes exactly one output per coordinate, in order *)
Theorem C108_one_each c w d ks : box_ok c w -> n_new c w = Ok d -> outputs_ok ks -> (size c <= size ks)%N ->
  (forall i, (i < size c)%N -> Rabs (v2R (nth d0 c i)) <= IZR (2 ^ 16) * v2R (nth d0 w i)) ->
  exists x, n_sample d ks = Ok (Some (x, drop (size c) ks)) /\
  forall i, (i < size c)%N -> let C := v2R (nth d0 c i) in let W := v2R (nth d0 w i) in
    Rabs (v2R (nth d0 x i) - (C - W / 2 + IZR (nth 0%Z ks i) / IZR (2 ^ 32) * W)) <= 8 * eps * (Rabs C + W).
Proof.
move=> hb en hk hn h16; have es := new_sides en; have hs := proj1 hb; rewrite /n_sample es.
have p16 : IZR (2 ^ 16) = bpow radix2 16 by [].
have hf := @fill_each (sides c w) ks (sides_ok hb) hk; rewrite (sides_size hs) in hf.
eexists; split.
  apply: hf; last exact: hn.
  move=> b /(In_nth (d0, d0))[i]; rewrite sides_size // => hi -> k ok; rewrite sides_nth //.
  have [hc hw] := proj2 hb i hi; have [f1 f2 _ _] := border hc hw; have [b1 b2] := border_901 hc hw.
  have [|g1 g2] := gap_16 hc hw; first by rewrite -p16; exact: h16.
  exact: cand_lt.
move=> i hi; cbv zeta; have [hc hw] := proj2 hb i hi.
have hz : (i < size (zip (sides c w) ks))%N by rewrite size1_zip sides_size.
rewrite (nth_map ((d0, d0), 0%Z)) // nth_zip_cond hz sides_nth // -uu_val.
have ok : output (nth 0%Z ks i) by apply: hk; apply: nth_In; exact: leq_trans hi hn.
apply: (point_err hc hw ok); have [f1 f2 b1 b2 b3] := side_ok hc hw; exact: cand_err.
Qed.
(** C108: if no centre is above 2^50 widths, SampleFrom returns as soon as enough outputs are below 2^31 *)
Theorem C108_returns c w d ks : box_ok c w -> n_new c w = Ok d -> outputs_ok ks -> (size c <= count lower ks)%N ->
  (forall i, (i < size c)%N -> Rabs (v2R (nth d0 c i)) <= IZR (2 ^ 50) * v2R (nth d0 w i)) ->
  exists x ks', n_sample d ks = Ok (Some (x, ks')).
Proof.
move=> hb en hk hn h50; have es := new_sides en; have hs := proj1 hb; rewrite /n_sample es.
have p50 : IZR (2 ^ 50) = bpow radix2 50 by [].
apply: (fill_half (sides_ok hb) hk); last by rewrite sides_size.
move=> b /(In_nth (d0, d0))[i]; rewrite sides_size // => hi ->; rewrite sides_nth //.
by have [hc hw] := proj2 hb i hi; apply: (gap_wide hc hw); rewrite -p50; exact: h50.
Qed.
(** C108 (finding): a positive width below 2^-54 of the centre makes both borders equal to the centre;
    SampleFrom then never returns, whatever the generator gives, although the density at the centre is positive *)
Theorem C108_stuck_refuted c w d i : box_ok c w -> volume_ok w -> n_new c w = Ok d -> (i < size c)%N ->
  v2R (nth d0 w i) <= Rabs (v2R (nth d0 c i)) / IZR (2 ^ 54) ->
  [/\ 0 < v2R (nth d0 w i), v2R (nth d0 (un_lo d) i) = v2R (nth d0 c i), v2R (nth d0 (un_hi d) i) = v2R (nth d0 c i),
      forall ks, outputs_ok ks -> n_sample d ks = Ok None & n_prob d c = Ok (un_h d) /\ 0 < v2R (un_h d)].
Proof.
move=> hb hv en hi ht; have es := new_sides en; have hs := proj1 hb; have [hc hw] := proj2 hb i hi.
have [d' []] := C108_borders hb; rewrite en => -[<-] s1 s2 hd.
have e54 : / IZR (2 ^ 54) = / 2 * uu.
  have -> : uu = bpow radix2 (-53) by rewrite /uu -[(-53)%Z]/(-1 + -52)%Z bpow_plus.
  have -> : / 2 = bpow radix2 (-1) by [].
  by rewrite -bpow_plus.
have w0 := width_pos hw; rewrite /Rdiv e54 in ht; have [_ _ e1 e2] := border hc hw.
have c0 := Rabs_pos (v2R (nth d0 c i)).
have uc : 0 <= uu * Rabs (v2R (nth d0 c i)) by apply: Rmult_le_pos; [have := uu_lt; lra|exact: c0].
have st1 : v2R (b_lo (nth d0 c i) (nth d0 w i)) = v2R (nth d0 c i).
  by rewrite e1; apply: rnd_stay; [exact: fmt|apply: Rabs_le; lra].
have st2 : v2R (b_hi (nth d0 c i) (nth d0 w i)) = v2R (nth d0 c i).
  by rewrite e2; apply: rnd_stay; [exact: fmt|apply: Rabs_le; lra].
have [el eh] : nth d0 (un_lo d) i = b_lo (nth d0 c i) (nth d0 w i) /\ nth d0 (un_hi d) i = b_hi (nth d0 c i) (nth d0 w i).
  by have := sides_nth hs hi; rewrite -es nth_zip ?s1 ?s2 // => -[].
rewrite el eh; split; [exact: w0|exact: st1|exact: st2| |].
  move=> ks hk; rewrite /n_sample es; apply: (@fill_stuck (sides c w) ks i (sides_ok hb) hk); first by rewrite sides_size.
  by rewrite sides_nth // [RHS]st2; exact: st1.
split; last by case: (C108_height hb hv en).
apply: (proj1 (C108_density hb hv en erefl _)).
  by move=> j hj; have [[f _] _] := proj2 hb j hj.
by move=> j hj; have [_ _ _ _ h] := hd j hj.
Qed.

(** a box of two coordinates: centre (3, 1), width (2, 2^-60) *)
Definition ex_c : seq double := [:: dlit 3 0; dlit 1 0].
Definition ex_w : seq double := [:: dlit 2 0; dlit 1 (-60)].
Lemma b_in e : (-900 <= e <= 900)%Z -> bpow radix2 (-900) <= bpow radix2 e <= bpow radix2 900.
Proof. by move=> h; split; apply: bpow_le; lia. Qed.
Lemma ex_vals : [/\ v2R (dlit 3 0) = 3, v2R (dlit 1 0) = 1, v2R (dlit 2 0) = 2 & v2R (dlit 1 (-60)) = bpow radix2 (-60)].
Proof.
have b0 : bpow radix2 0 = 1 by [].
have [_ e1] := @lit_val 3 0 erefl ltac:(lia); have [_ e2] := @lit_val 1 0 erefl ltac:(lia).
have [_ e3] := @lit_val 2 0 erefl ltac:(lia); have [_ e4] := @lit_val 1 (-60) erefl ltac:(lia).
by rewrite e1 e2 e3 e4 b0; split; lra.
Qed.
Lemma ex_box : box_ok ex_c ex_w.
Proof.
have [e1 e2 e3 e4] := ex_vals; have b1 := @bpow_le radix2 2 900 ltac:(lia); have b2 : bpow radix2 2 = 4 by [].
have b3 := @bpow_le radix2 (-900) 0 ltac:(lia); have b4 : bpow radix2 0 = 1 by [].
split; first by []; case=> [|[|//]] _; rewrite [nth _ _ _]/= [nth _ ex_w _]/=; split; split; rewrite ?e1 ?e2 ?e3 ?e4.
- exact: (proj1 (@lit_val 3 0 erefl ltac:(lia))).
- by rewrite Rabs_pos_eq; lra.
- exact: (proj1 (@lit_val 2 0 erefl ltac:(lia))).
- by lra.
- exact: (proj1 (@lit_val 1 0 erefl ltac:(lia))).
- by rewrite Rabs_pos_eq; lra.
- exact: (proj1 (@lit_val 1 (-60) erefl ltac:(lia))).
by apply: b_in; lia.
Qed.
Lemma ex_volume : volume_ok ex_w.
Proof.
have [e1 e2 e3 e4] := ex_vals; split.
  by rewrite INR_IZR_INZ; apply: IZR_le.
case=> [|[|[|//]]] _; rewrite [take _ _]/= [volume _]/= ?e3 ?e4.
- have -> : / 1 = bpow radix2 0 by rewrite Rinv_1. by apply: b_in; lia.
- have -> : / (2 * 1) = bpow radix2 (-1) by rewrite Rmult_1_r. by apply: b_in; lia.
have -> : / (2 * (bpow radix2 (-60) * 1)) = bpow radix2 59.
  have -> : 2 = bpow radix2 1 by []. by rewrite Rmult_1_r -bpow_plus -bpow_opp.
by apply: b_in; lia.
Qed.
(** the density at the centre is near 2^59; SampleFrom never returns *)
Theorem C108_case : exists d, [/\ n_new ex_c ex_w = Ok d, n_prob d ex_c = Ok (un_h d),
  bpow radix2 58 <= v2R (un_h d) & forall ks, outputs_ok ks -> n_sample d ks = Ok None].
Proof.
have [e1 e2 e3 e4] := ex_vals; have hb := ex_box; have hv := ex_volume.
have [d [en _ _ _]] := C108_borders hb; exists d.
have [|_ _ _ hs [hp h0]] := @C108_stuck_refuted ex_c ex_w d 1 hb hv en erefl.
  rewrite /= e2 e4 Rabs_R1; have -> : 1 / IZR (2 ^ 54) = bpow radix2 (-54) by rewrite /Rdiv Rmult_1_l.
  exact: bpow_le.
split; [exact: en|exact: hp| |exact: hs].
have [_ _ h] := C108_height hb hv en; have {}h := Rabs_le_inv _ _ h; move: h.
have -> : volume ex_w = bpow radix2 (-59).
  by rewrite /= e3 e4; have -> : 2 = bpow radix2 1 by []; rewrite Rmult_1_r -bpow_plus.
have -> : INR (size ex_w) = 2 by rewrite /=; ring.
have -> : bpow radix2 58 = / 2 * / bpow radix2 (-59) by rewrite -bpow_opp; have -> : / 2 = bpow radix2 (-1) by []; rewrite -bpow_plus.
rewrite -uu_val; have := uu_lt; have := bpow_gt_0 radix2 (-59); move: (bpow radix2 (-59)) (v2R (un_h d)) => b h b0 hu [h1 _].
apply: (Rmult_le_reg_r b) => //; rewrite Rmult_assoc Rinv_l; lra.
Qed.
(** one coordinate, centre 3, width 2: one output, [2^31] gives a point near 3 *)
Theorem C108_case_sample : exists d x, [/\ n_new [:: dlit 3 0] [:: dlit 2 0] = Ok d, n_sample d [:: (2 ^ 31)%Z; 7%Z] = Ok (Some (x, [:: 7%Z]))
  & Rabs (v2R (nth d0 x 0) - 3) <= 40 * eps].
Proof.
have [e1 e2 e3 e4] := ex_vals.
have hb : box_ok [:: dlit 3 0] [:: dlit 2 0].
  by split=> // -[|//] _; exact: (proj2 ex_box 0%N erefl).
have [d [en _ _ _]] := C108_borders hb; exists d.
have hk : outputs_ok [:: (2 ^ 31)%Z; 7%Z] by move=> k [<-|[<-|//]]; rewrite /output; lia.
have [|x [hx h]] := C108_one_each hb en hk erefl.
  case=> [|//] _; rewrite /= e1 e3 Rabs_pos_eq; last lra.
  by have h := IZR_le 2 (2 ^ 16) ltac:(lia); lra.
exists x; split; [exact: en|exact: hx|].
have := h 0%N erefl; cbv zeta; rewrite [nth d0 [:: _] 0]/= [nth d0 [:: dlit 2 0] 0]/= e1 e3 (Rabs_pos_eq 3); last lra.
have -> : IZR (nth 0%Z [:: (2 ^ 31)%Z; 7%Z] 0) / IZR (2 ^ 32) = / 2.
  change (IZR (2 ^ 31) / IZR (2 ^ 32) = / 2); have -> : IZR (2 ^ 32) = IZR (2 ^ 31) * 2 by rewrite -mult_IZR.
  by have : IZR (2 ^ 31) <> 0 by [apply: not_0_IZR]; move: (IZR (2 ^ 31)) => a ha; field.
by have -> : 3 - 2 / 2 + / 2 * 2 = 3 by [field]; lra.
Qed.

Print Assumptions C108_borders.
Print Assumptions C108_sizes.
Print Assumptions C108_read_back.
Print Assumptions C108_height.
Print Assumptions C108_density.
Print Assumptions C108_sample.
Print Assumptions C108_one_each.
Print Assumptions C108_returns.
Print Assumptions C108_stuck_refuted.
Print Assumptions C108_case.
Print Assumptions C108_case_sample.
