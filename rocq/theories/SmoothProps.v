(** * Proofs about Smooth.v. *)
From Coq Require Import Epsilon Reals Lra ZArith String List Lia.
Set Warnings "-notation-overridden,-ambiguous-paths".
From mathcomp Require Import all_ssreflect all_algebra.
From Verif Require Import RStruct MatR Num Py Combination Smooth SpecSmooth.
Set Implicit Arguments.
Unset Strict Implicit.
Unset Printing Implicit Defensive.
Import GRing.Theory.
Local Open Scope ring_scope.
Delimit Scope R_scope with re.

Section Inner.
  Context (n : nat).
  Implicit Types (A B C X Y M S : 'M[R]_n).
  Definition dot A B : R := \sum_i \sum_j A i j * B i j.
  Lemma dotC A B : dot A B = dot B A.
  Proof. apply: eq_bigr => i _. apply: eq_bigr => j _. exact: mulrC. Qed.
  Lemma dotDl A B C : dot (A + B) C = dot A C + dot B C.
  Proof.
    rewrite /dot -big_split /=. apply: eq_bigr => i _. rewrite -big_split /=. apply: eq_bigr => j _.
    by rewrite addE mulrDl.
  Qed.
  Lemma dotZl c A C : dot (c *: A) C = c * dot A C.
  Proof.
    rewrite /dot big_distrr /=. apply: eq_bigr => i _. rewrite big_distrr /=. apply: eq_bigr => j _.
    by rewrite mxE mulrA.
  Qed.
  Lemma dotDr A B C : dot C (A + B) = dot C A + dot C B.
  Proof. by rewrite dotC dotDl !(dotC C). Qed.
  Lemma dotZr c A C : dot C (c *: A) = c * dot C A.
  Proof. by rewrite dotC dotZl (dotC C). Qed.
  Lemma dot_ge0 A : (0 <= dot A A)%re.
  Proof. apply: sumR_ge0 => i _. apply: sumR_ge0 => j _. exact: Rle_0_sqr. Qed.
  Lemma dot_eq0 A : dot A A = 0 -> A = 0.
  Proof.
    move=> H. apply/matrixP => i j. rewrite mxE.
    have H1 := sumR_eq0 (fun i => sumR_ge0 (P := xpredT) (fun j _ => Rle_0_sqr (A i j))) H i.
    have := sumR_eq0 (fun j => Rle_0_sqr (A i j)) H1 j. exact: Rsqr_0_uniq.
  Qed.
  Lemma frobE A : frob A = sqrt (dot A A).
  Proof. by []. Qed.
  Lemma frob_ge0 A : (0 <= frob A)%re.
  Proof. exact: sqrt_pos. Qed.
  Lemma frob_sq A : (frob A ^ 2 = dot A A)%re.
  Proof. rewrite frobE /= Rmult_1_r. apply: sqrt_sqrt. exact: dot_ge0. Qed.
  Lemma frob_eq0 A : frob A = 0 -> A = 0.
  Proof. move=> H. apply: dot_eq0. rewrite -frob_sq H /=. toR. eqR. ring. Qed.
  Lemma frob_sub0 A : frob (A - A) = 0.
  Proof. rewrite frobE addrN. rewrite (_ : dot 0 0 = 0); first exact: sqrt_0. by rewrite -(scale0r (0 : 'M[R]_n)) dotZl mul0r. Qed.
  Lemma frobN A : frob (- A) = frob A.
  Proof. rewrite !frobE. congr sqrt. rewrite -scaleN1r dotZl dotZr mulrA mulN1r opprK. exact: mul1r. Qed.
  Lemma frobZ c A : (frob (c *: A) = Rabs c * frob A)%re.
  Proof.
    rewrite !frobE dotZl dotZr mulrA. toR. rewrite sqrt_mult; [|exact: Rle_0_sqr|exact: dot_ge0]. by rewrite sqrt_Rsqr_abs.
  Qed.
  Lemma distE X Y : dist X Y = frob (X - Y).
  Proof.
    rewrite /dist /frob. congr sqrt. apply: eq_bigr => i _. apply: eq_bigr => j _. by rewrite subE.
  Qed.
  Lemma dot0r A : dot A 0 = 0.
  Proof. by rewrite -(scale0r (0 : 'M[R]_n)) dotZr mul0r. Qed.
  Lemma frob0 : frob (0 : 'M[R]_n) = 0.
  Proof. by rewrite frobE dot0r sqrt_0. Qed.
  Lemma cauchy A B : (dot A B <= frob A * frob B)%re.
  Proof.
    case: (Req_dec (frob B) 0) => [H|H].
    { rewrite H (frob_eq0 H) dot0r. toR. lra. }
    case: (Req_dec (frob A) 0) => [H'|H'].
    { rewrite H' (frob_eq0 H') dotC dot0r. toR. lra. }
    have := dot_ge0 (frob B *: A - frob A *: B).
    rewrite -scaleNr dotDl !dotDr !dotZl !dotZr (dotC B A) -!frob_sq.
    have Hb : (0 < frob B)%re by have := frob_ge0 B; lra.
    have Ha : (0 < frob A)%re by have := frob_ge0 A; lra.
    move: (frob A) (frob B) (dot A B) Hb Ha => a b d Hb Ha. toR. move=> H0.
    have E : (b * (b * a ^ 2) + b * (- a * d) + (- a * (b * d) + - a * (- a * b ^ 2)) = 2 * (a * b) * (a * b - d))%re by ring.
    have Hab := Rmult_lt_0_compat _ _ Ha Hb. nra.
  Qed.
End Inner.

Section Step.
  Context (n : nat).
  Implicit Types (X Y M S : 'M[R]_n).

  (** The point at distance lam from X on the way to Y (or Y itself if it is nearer). *)
  Definition shrink X Y lam : 'M[R]_n :=
    if Rle_dec (frob (Y - X)) lam then Y else X + (lam / frob (Y - X))%re *: (Y - X).

  Lemma cost_expand X M S : (1 / 2 * frob (M - X) ^ 2 = 1 / 2 * frob (S - X) ^ 2 + dot (S - X) (M - S) + 1 / 2 * frob (M - S) ^ 2)%re.
  Proof.
    have -> : M - X = (S - X) + (M - S) by rewrite [RHS]addrC addrA subrK.
    move: (S - X) (M - S) => U V. rewrite !frob_sq dotDl !dotDr (dotC V U). toR. field.
  Qed.
  (** If X - S is a subgradient of lam |. - Y| at S, then S is the minimiser, with quadratic growth. *)
  Lemma subgrad_min X Y lam S : (0 <= lam)%re -> (frob (X - S) <= lam)%re -> dot (X - S) (S - Y) = (lam * frob (S - Y))%re ->
    forall M, (day_cost X Y lam S + 1 / 2 * frob (M - S) ^ 2 <= day_cost X Y lam M)%re.
  Proof.
    move=> Hl Hs Hd M. rewrite /day_cost !distE (cost_expand X M S).
    have H1 := cauchy (X - S) (M - Y).
    have E : dot (X - S) (M - Y) = dot (X - S) (M - S) + dot (X - S) (S - Y).
    { by rewrite -dotDr addrA subrK. }
    have E2 : dot (S - X) (M - S) = (- dot (X - S) (M - S))%re.
    { rewrite -opprB -scaleN1r dotZl. toR. ring. }
    have H2 := Rmult_le_compat_r _ _ _ (frob_ge0 (M - Y)) Hs.
    move: H1. rewrite E Hd E2. toR. lra.
  Qed.
  Lemma shrink_min X Y lam : (0 <= lam)%re ->
    forall M, (day_cost X Y lam (shrink X Y lam) + 1 / 2 * frob (M - shrink X Y lam) ^ 2 <= day_cost X Y lam M)%re.
  Proof.
    move=> Hl. apply: subgrad_min => //; rewrite /shrink; case: Rle_dec => H.
    - by rewrite -frobN opprB.
    - rewrite opprD addrA addrN add0r frobN frobZ. have Hd : (0 < frob (Y - X))%re by lra.
      rewrite Rabs_right; last by apply: Rle_ge; apply: Rmult_le_pos; [|apply: Rlt_le; exact: Rinv_0_lt_compat].
      right. field. lra.
    - rewrite addrN dot0r frob0. toR. ring.
    - have Hd : (0 < frob (Y - X))%re by lra.
      set c := (lam / frob (Y - X))%re.
      have Hc : (0 <= c)%re by apply: Rmult_le_pos; [|apply: Rlt_le; exact: Rinv_0_lt_compat].
      have Hc1 : (c < 1)%re by rewrite /c; apply: (Rmult_lt_reg_r (frob (Y - X))) => //; field_simplify; lra.
      have -> : X - (X + c *: (Y - X)) = (- c)%re *: (Y - X).
      { rewrite opprD addrA addrN add0r -scaleNr. by toR. }
      have -> : X + c *: (Y - X) - Y = (- (1 - c))%re *: (Y - X).
      { apply/matrixP => i j. rewrite !mxE. toR. eqR. unfold Rdiv. ring. }
      rewrite dotZl dotZr frobZ -frob_sq (_ : Rabs (- (1 - c))%re = (1 - c)%re); last by rewrite Rabs_Ropp Rabs_right; lra.
      toR. rewrite (_ : lam = (c * frob (Y - X))%re); last by rewrite /c; field; lra. ring.
  Qed.
  Lemma shrink_unique X Y lam M : (0 <= lam)%re -> (forall M', (day_cost X Y lam M <= day_cost X Y lam M')%re) -> M = shrink X Y lam.
  Proof.
    move=> Hl H. have := shrink_min X Y Hl M. have := H (shrink X Y lam) => H1 H2.
    have H3 : frob (M - shrink X Y lam) = 0. { have := frob_ge0 (M - shrink X Y lam). move: (frob _) H1 H2 => f. toR. move=> *. eqR. nra. }
    have := frob_eq0 H3 => /eqP. by rewrite subr_eq0 => /eqP.
  Qed.
  (** Restricting to the line loses nothing. *)
  Lemma shrink_on_line X Y lam : exists theta, shrink X Y lam = blend theta X Y.
  Proof.
    rewrite /shrink. case: Rle_dec => H.
    - exists 0. by rewrite /blend scale0r add0r subr0 scale1r.
    - exists (1 - (lam / frob (Y - X))%re). rewrite /blend. apply/matrixP => i j. rewrite !mxE. move: (lam / frob _)%re (X i j) (Y i j) => c x y. toR. eqR. ring.
  Qed.
  Lemma objectiveE X Y lam theta : get_next_objective X Y lam theta = day_cost X Y lam (blend theta X Y).
  Proof. by rewrite /day_cost !distE. Qed.
  Lemma objective_min X Y lam : (0 <= lam)%re -> exists theta, forall theta', (get_next_objective X Y lam theta <= get_next_objective X Y lam theta')%re.
  Proof.
    move=> Hl. have [th E] := shrink_on_line X Y lam. exists th => th'. rewrite !objectiveE -E. have := shrink_min X Y Hl (blend th' X Y).
    have := pow2_ge_0 (frob (blend th' X Y - shrink X Y lam)). lra.
  Qed.
  Lemma solve_blend (solve : theta_solver) X Y lam theta : minimises_theta solve -> (0 <= lam)%re ->
    solve (get_next_objective X Y lam) = Some theta -> blend theta X Y = shrink X Y lam.
  Proof.
    move=> Hs Hl H. have [th E] := shrink_on_line X Y lam. have H1 := Hs _ _ H th.
    have H2 := shrink_min X Y Hl (blend theta X Y). rewrite !objectiveE in H1.
    have H1' : (day_cost X Y lam (blend theta X Y) <= day_cost X Y lam (shrink X Y lam))%re by rewrite E.
    have H3 : frob (blend theta X Y - shrink X Y lam) = 0.
    { have := frob_ge0 (blend theta X Y - shrink X Y lam). move: (frob _) H1' H2 => f. toR. move=> *. eqR. nra. }
    have := frob_eq0 H3 => /eqP. by rewrite subr_eq0 => /eqP.
  Qed.
  Lemma shrink_dist X Y lam : (0 <= lam)%re -> (frob (shrink X Y lam - X) <= lam)%re.
  Proof.
    move=> Hl. rewrite /shrink. case: Rle_dec => // H. rewrite addrAC addrN add0r frobZ. have Hd : (0 < frob (Y - X))%re by lra.
    rewrite Rabs_right; last by apply: Rle_ge; apply: Rmult_le_pos; [|apply: Rlt_le; exact: Rinv_0_lt_compat].
    right. field. lra.
  Qed.
  Lemma shrink_convex X Y lam : (0 <= lam)%re -> exists c, (0 <= c <= 1)%re /\ shrink X Y lam = (1 - c) *: X + c *: Y.
  Proof.
    move=> Hl. rewrite /shrink. case: Rle_dec => H.
    - exists 1. split; first by toR; lra. by rewrite subrr scale0r add0r scale1r.
    - exists (lam / frob (Y - X))%re. have Hd : (0 < frob (Y - X))%re by lra. split.
      + split; first by apply: Rmult_le_pos; [|apply: Rlt_le; exact: Rinv_0_lt_compat].
        apply: (Rmult_le_reg_r (frob (Y - X))) => //; field_simplify; lra.
      + apply/matrixP => i j. rewrite !mxE. move: (lam / frob _)%re (X i j) (Y i j) => c x y. toR. eqR. ring.
  Qed.
  Lemma convex_psd X Y c : (0 <= c <= 1)%re -> psd X -> psd Y -> psd ((1 - c) *: X + c *: Y).
  Proof.
    move=> Hc [SX PX] [SY PY]. split; first by rewrite /sym trD !trZ SX SY.
    move=> x. rewrite qfD !qfZ. have := PX x. have := PY x. move: (qf X x) (qf Y x) => a b. toR. nra.
  Qed.
  Lemma convex_spd X Y c : (0 <= c <= 1)%re -> spd X -> spd Y -> spd ((1 - c) *: X + c *: Y).
  Proof.
    move=> Hc [SX PX] [SY PY]. split; first by rewrite /sym trD !trZ SX SY.
    move=> x Hx. rewrite qfD !qfZ. have := PX x Hx. have := PY x Hx. move: (qf X x) (qf Y x) => a b. toR. nra.
  Qed.
End Step.

Section Loop.
  Context (n : nat) (check : check_t n) (solve : theta_solver) (lam : R).
  Implicit Types (X Y M S : 'M[R]_n).

  Lemma frob_triangle (A B : 'M[R]_n) : (frob (A + B) <= frob A + frob B)%re.
  Proof.
    apply: Rsqr_incr_0; [|exact: frob_ge0|have := frob_ge0 A; have := frob_ge0 B; lra].
    have H := cauchy A B. have := frob_sq (A + B). have := frob_sq A. have := frob_sq B. rewrite dotDl !dotDr (dotC B A).
    move: (frob _) (frob A) (frob B) (dot A B) H => f a b d. toR. rewrite /Rsqr => H H1 H2 H3. nra.
  Qed.
  Lemma shrink_move X X' S : (0 <= lam)%re -> (frob (S - X) <= lam)%re -> (frob (shrink X' S lam - S) <= frob (X' - X))%re.
  Proof.
    move=> Hl H. rewrite /shrink. case: Rle_dec => Hd; first by rewrite frob_sub0; exact: frob_ge0.
    have Hp : (0 < frob (S - X'))%re by lra.
    have -> : X' + (lam / frob (S - X'))%re *: (S - X') - S = (- (1 - lam / frob (S - X')))%re *: (S - X').
    { apply/matrixP => i j. rewrite !mxE. move: (lam / frob _)%re (X' i j) (S i j) => c x y. toR. eqR. ring. }
    rewrite frobZ Rabs_Ropp Rabs_right; last first.
    { apply: Rle_ge. apply: (Rmult_le_reg_r (frob (S - X'))) => //. field_simplify; lra. }
    have := frob_triangle (S - X) (X - X'). rewrite addrA subrK -(frobN (X - X')) opprB => Ht.
    have -> : ((1 - lam / frob (S - X')) * frob (S - X') = frob (S - X') - lam)%re by field; lra.
    lra.
  Qed.
  Lemma shrink_moves X S : (0 <= lam)%re -> (lam < frob (S - X))%re -> shrink X S lam <> S.
  Proof.
    move=> Hl H E. have := shrink_dist X S Hl. rewrite E. lra.
  Qed.

  Lemma loop_size prev Xs l : l1_loop check solve lam prev Xs = Ok l -> size l = size Xs.
  Proof.
    elim: Xs prev l => [|X Xs IH] prev l /=; first by case=> <-.
    case: Rle_dec => H.
    - case E : l1_loop => [rest|e] //= [<-] /=. by rewrite (IH _ _ E).
    - case: get_next => [Y|e] //=. case E : l1_loop => [rest|e] //= [<-] /=. by rewrite (IH _ _ E).
  Qed.
  Lemma get_next_ok X Y M : minimises_theta solve -> (0 <= lam)%re -> get_next check solve X Y lam = Ok M -> M = shrink X Y lam.
  Proof.
    move=> Hs Hl. rewrite /get_next. case: check => //=. case: check => //=. case: Rlt_dec => //= _.
    case E : solve => [th|] //= [<-]. exact: solve_blend E.
  Qed.
  Lemma loop_steps prev Xs l : minimises_theta solve -> (0 <= lam)%re -> l1_loop check solve lam prev Xs = Ok l ->
    forall i, (i < size Xs)%N ->
      nth 0 [seq q.1 | q <- l] i = shrink (nth 0 Xs i) (nth 0 (prev :: [seq q.1 | q <- l]) i) lam /\
      nth 0%N [seq q.2 | q <- l] i =
        (if Rle_dec (frob (nth 0 (prev :: [seq q.1 | q <- l]) i - nth 0 Xs i)) lam then 0%N else 1%N).
  Proof.
    move=> Hs Hl. elim: Xs prev l => [|X Xs IH] prev l //=. case: Rle_dec => H.
    - case E : l1_loop => [rest|e] //= [<-] [|i] /=.
      + move=> _. rewrite /shrink. case: Rle_dec => //.
      + rewrite ltnS => Hi. exact: (IH _ _ E i Hi).
    - case G : get_next => [Y|e] //=. case E : l1_loop => [rest|e] //= [<-] [|i] /=.
      + move=> _. rewrite (get_next_ok Hs Hl G). split=> //. by case: Rle_dec.
      + rewrite ltnS => Hi. exact: (IH _ _ E i Hi).
  Qed.
  Lemma loop_prefix prev Xs l k : l1_loop check solve lam prev Xs = Ok l -> l1_loop check solve lam prev (take k Xs) = Ok (take k l).
  Proof.
    elim: Xs prev l k => [|X Xs IH] prev l k /=; first by case=> <-. case: k => [|k] /=; first by rewrite take0. case: Rle_dec => H.
    - case E : l1_loop => [rest|e] //= [<-] /=. by rewrite (IH _ _ k E).
    - case G : get_next => [Y|e] //=. case E : l1_loop => [rest|e] //= [<-] /=. by rewrite (IH _ _ k E).
  Qed.
  Lemma loop_total prev Xs : minimises_theta solve -> accepts_psd check -> always_solves solve -> (0 <= lam)%re ->
    psd prev -> (forall X, X \in Xs -> psd X) -> exists l, l1_loop check solve lam prev Xs = Ok l.
  Proof.
    move=> Hs Hc Ha Hl. elim: Xs prev => [|X Xs IH] prev Hp HX /=; first by eexists.
    have HX' : forall X, X \in Xs -> psd X by move=> Z HZ; apply: HX; rewrite inE HZ orbT.
    have HX0 : psd X by apply: HX; rewrite inE eqxx.
    case: Rle_dec => H; first by have [l El] := IH _ Hp HX'; exists ((prev, 0%N) :: l); rewrite El.
    have [Y G] : exists Y, get_next check solve X prev lam = Ok Y.
    { rewrite /get_next (Hc _ Hp) (Hc _ HX0) /=. case: Rlt_dec => [H'|Hn]; first by exfalso; lra.
      case E : solve => [th|] /=; [by eexists|by case: (Ha _ (objective_min X prev Hl))]. }
    rewrite G /=. have HY : psd Y.
    { rewrite (get_next_ok Hs Hl G). have [c [Hc1 ->]] := shrink_convex X prev Hl. exact: convex_psd. }
    have [l El] := IH _ HY HX'. exists ((Y, 1%N) :: l). by rewrite El.
  Qed.
End Loop.

Section Top.
  Context (n : nat).
  Implicit Types (check : check_t n) (solve : theta_solver) (d out : list (Z * cframe n)).

  Lemma nth_In_seq (A : Type) (x : A) l i : (i < size l)%N -> List.In (nth x l i) l.
  Proof. elim: l i => [|a l IH] [|i] //= Hi; [by left|right; exact: IH]. Qed.
  (** The dictionary as a first matrix and the others. *)
  Lemma L1_inv check solve cols d lam out ups : L1_smoothing check solve cols d lam = Ok (out, ups) ->
    exists X0 Xs l, [seq c_val p.2 | p <- d] = X0 :: Xs /\ l1_loop check solve lam X0 Xs = Ok l /\
      out = [seq (p.1, mkC cols cols p.2) | p <- zip [seq p.1 | p <- d] (X0 :: [seq q.1 | q <- l])] /\ ups = [seq q.2 | q <- l].
  Proof.
    rewrite /L1_smoothing. case: [seq c_val p.2 | p <- d] => [|X0 Xs] //. case E : l1_loop => [l|e] //= [<- <-].
    by exists X0, Xs, l.
  Qed.
  Lemma zip_vals cols (ts : seq Z) (Ms : seq 'M[R]_n) : size Ms = size ts ->
    [seq p.1 | p <- [seq (p.1, mkC cols cols p.2) | p <- zip ts Ms]] = ts /\
    [seq c_val p.2 | p <- [seq (p.1, mkC cols cols p.2) | p <- zip ts Ms]] = Ms.
  Proof.
    move=> E. rewrite -!map_comp. split.
    - rewrite (@eq_map _ _ _ fst) //. by rewrite -/(unzip1 _) unzip1_zip // E.
    - rewrite (@eq_map _ _ _ snd) //. by rewrite -/(unzip2 _) unzip2_zip // E.
  Qed.
  Lemma L1_shape check solve cols d lam out ups : L1_smoothing check solve cols d lam = Ok (out, ups) ->
    (0 < size d)%N /\ [seq p.1 | p <- out] = [seq p.1 | p <- d] /\ size ups = (size d).-1 /\
    (forall p, List.In p out -> c_index p.2 = cols /\ c_columns p.2 = cols) /\ mat_at out 0 = mat_at d 0.
  Proof.
    move=> /L1_inv [X0 [Xs [l [E [L [-> ->]]]]]]. have Hl := loop_size L.
    have Sd : size d = (size Xs).+1 by rewrite -(size_map (fun p => c_val p.2) d) E.
    have [Z1 Z2] := @zip_vals cols [seq p.1 | p <- d] (X0 :: [seq q.1 | q <- l]) ltac:(rewrite /= !size_map Hl Sd //).
    split; first by rewrite Sd. split=> //. split; first by rewrite size_map Hl Sd. split; last by rewrite /mat_at Z2 E.
    move=> p /List.in_map_iff [q [<- _]]. by [].
  Qed.
  Lemma L1_steps check solve cols d lam out ups : minimises_theta solve -> (0 <= lam)%re ->
    L1_smoothing check solve cols d lam = Ok (out, ups) -> forall i, (i.+1 < size d)%N ->
    mat_at out i.+1 = shrink (mat_at d i.+1) (mat_at out i) lam /\
    nth 0%N ups i = (if Rle_dec (frob (mat_at out i - mat_at d i.+1)) lam then 0%N else 1%N).
  Proof.
    move=> Hs Hl /L1_inv [X0 [Xs [l [E [L [-> ->]]]]]]. have Hsz := loop_size L.
    have Sd : size d = (size Xs).+1 by rewrite -(size_map (fun p => c_val p.2) d) E.
    have [Z1 Z2] := @zip_vals cols [seq p.1 | p <- d] (X0 :: [seq q.1 | q <- l]) ltac:(rewrite /= !size_map Hsz Sd //).
    rewrite /mat_at Z2 E Sd => i. rewrite ltnS => Hi. exact: (loop_steps Hs Hl L Hi).
  Qed.
  Lemma L1_day check solve cols d lam out ups : minimises_theta solve -> (0 <= lam)%re ->
    L1_smoothing check solve cols d lam = Ok (out, ups) -> forall i, (i.+1 < size d)%N ->
    let X := mat_at d i.+1 in let Y := mat_at out i in
    ((dist Y X <= lam)%re /\ nth 0%N ups i = 0%N /\ mat_at out i.+1 = Y) \/
    ((lam < dist Y X)%re /\ nth 0%N ups i = 1%N /\ mat_at out i.+1 = X + (lam / dist Y X)%re *: (Y - X)).
  Proof.
    move=> Hs Hl H i Hi X Y. have [-> ->] := L1_steps Hs Hl H Hi. rewrite distE /shrink -/X -/Y. case: Rle_dec => Hd; [by left|right].
    split=> //. lra.
  Qed.
  Lemma L1_optimal check solve cols d lam out ups : minimises_theta solve -> (0 <= lam)%re ->
    L1_smoothing check solve cols d lam = Ok (out, ups) -> forall i, (i.+1 < size d)%N ->
    forall M, M <> mat_at out i.+1 ->
    (day_cost (mat_at d i.+1) (mat_at out i) lam (mat_at out i.+1) < day_cost (mat_at d i.+1) (mat_at out i) lam M)%re.
  Proof.
    move=> Hs Hl H i Hi M. have [-> _] := L1_steps Hs Hl H Hi. move: (mat_at d _) (mat_at out _) => X Y HM.
    have := shrink_min X Y Hl M.
    have : (0 < frob (M - shrink X Y lam))%re.
    { case: (Rle_lt_or_eq_dec _ _ (frob_ge0 (M - shrink X Y lam))) => // E0. case: HM.
      have := frob_eq0 (esym E0) => /eqP. by rewrite subr_eq0 => /eqP. }
    move: (frob _) => f Hf. nra.
  Qed.
  Lemma L1_track check solve cols d lam out ups : minimises_theta solve -> (0 <= lam)%re ->
    L1_smoothing check solve cols d lam = Ok (out, ups) -> forall i, (i < size d)%N -> (dist (mat_at out i) (mat_at d i) <= lam)%re.
  Proof.
    move=> Hs Hl H [|i] Hi; rewrite distE.
    - have [_ [_ [_ [_ ->]]]] := L1_shape H. by rewrite frob_sub0.
    - have [-> _] := L1_steps Hs Hl H Hi. exact: shrink_dist.
  Qed.
  Lemma L1_calm check solve cols d lam out ups : minimises_theta solve -> (0 <= lam)%re ->
    L1_smoothing check solve cols d lam = Ok (out, ups) -> forall i, (i.+1 < size d)%N ->
    (dist (mat_at out i.+1) (mat_at out i) <= dist (mat_at d i.+1) (mat_at d i))%re.
  Proof.
    move=> Hs Hl H i Hi. have := L1_track Hs Hl H (ltnW Hi). rewrite !distE => Ht. have [-> _] := L1_steps Hs Hl H Hi. exact: shrink_move.
  Qed.
  Lemma L1_psd check solve cols d lam out ups : minimises_theta solve -> (0 <= lam)%re ->
    L1_smoothing check solve cols d lam = Ok (out, ups) ->
    ((forall i, (i < size d)%N -> psd (mat_at d i)) -> forall i, (i < size d)%N -> psd (mat_at out i)) /\
    ((forall i, (i < size d)%N -> spd (mat_at d i)) -> forall i, (i < size d)%N -> spd (mat_at out i)).
  Proof.
    move=> Hs Hl H. have [_ [_ [_ [_ E0]]]] := L1_shape H. split=> Hd; elim=> [|i IH] Hi; try by rewrite E0; exact: Hd.
    - have [-> _] := L1_steps Hs Hl H Hi. have [c [Hc ->]] := shrink_convex (mat_at d i.+1) (mat_at out i) Hl.
      apply: convex_psd => //; [exact: Hd|exact: IH (ltnW Hi)].
    - have [-> _] := L1_steps Hs Hl H Hi. have [c [Hc ->]] := shrink_convex (mat_at d i.+1) (mat_at out i) Hl.
      apply: convex_spd => //; [exact: Hd|exact: IH (ltnW Hi)].
  Qed.
  Lemma L1_prefix check solve cols d lam out ups k : L1_smoothing check solve cols d lam = Ok (out, ups) ->
    L1_smoothing check solve cols (take k.+1 d) lam = Ok (take k.+1 out, take k ups).
  Proof.
    move=> /L1_inv [X0 [Xs [l [E [L [-> ->]]]]]]. rewrite /L1_smoothing !map_take E /= (loop_prefix k L) /=.
    congr (Ok (_, _)); last by rewrite map_take. case: d E => [|p d] //= [E1 E2].
    congr (_ :: _). clear. elim: k d l => [|k IH] [|a d] [|b l] //=. by rewrite IH.

  Qed.
  Lemma L1_total check solve cols d lam : minimises_theta solve -> accepts_psd check -> always_solves solve -> (0 <= lam)%re ->
    (0 < size d)%N -> (forall i, (i < size d)%N -> psd (mat_at d i)) -> exists out ups, L1_smoothing check solve cols d lam = Ok (out, ups).
  Proof.
    move=> Hs Hc Ha Hl Hd HP. rewrite /L1_smoothing.
    have HP' : forall X, X \in [seq c_val p.2 | p <- d] -> psd X.
    { move=> X /(nthP 0) [i]. rewrite size_map => Hi <-. exact: HP. }
    case E : [seq c_val p.2 | p <- d] HP' => [|X0 Xs] HP'.
    - by move: Hd; rewrite -(size_map (fun p => c_val p.2) d) E.
    - have [|X HX|l ->] := @loop_total n check solve lam X0 Xs Hs Hc Ha Hl; try (apply: HP'; rewrite inE ?eqxx ?HX ?orbT //).
      by exists [seq (p.1, mkC cols cols p.2) | p <- zip [seq p.1 | p <- d] (X0 :: [seq q.1 | q <- l])], [seq q.2 | q <- l].
  Qed.
  Lemma L1_same check check' solve solve' cols d lam out ups out' ups' : minimises_theta solve -> minimises_theta solve' -> (0 <= lam)%re ->
    L1_smoothing check solve cols d lam = Ok (out, ups) -> L1_smoothing check' solve' cols d lam = Ok (out', ups') ->
    out = out' /\ ups = ups'.
  Proof.
    move=> Hs Hs' Hl H H'. have [_ [K [U [L E]]]] := L1_shape H. have [_ [K' [U' [L' E']]]] := L1_shape H'.
    have Hm : forall i, (i < size d)%N -> mat_at out i = mat_at out' i.
    { elim=> [|i IH] Hi; first by rewrite E E'. have [-> _] := L1_steps Hs Hl H Hi. have [-> _] := L1_steps Hs' Hl H' Hi. by rewrite IH // ltnW. }
    have So : size out = size d by rewrite -(size_map fst d) -K size_map.
    have So' : size out' = size d by rewrite -(size_map fst d) -K' size_map.
    pose dft : Z * cframe n := (Z0, mkC [::] [::] 0).
    split.
    - apply: (@eq_from_nth _ dft); first by rewrite So So'. move=> i Hi.
      have Hi' : (i < size d)%N by rewrite -So.
      have I1 : List.In (nth dft out i) out by exact: nth_In_seq.
      have I2 : List.In (nth dft out' i) out' by apply: nth_In_seq; rewrite So'.
      have := L _ I1. have := L' _ I2. have := Hm i Hi'. rewrite /mat_at !(nth_map dft) ?So' //.
      have := congr1 (fun s => nth Z0 s i) K. have := congr1 (fun s => nth Z0 s i) K'.
      rewrite !(nth_map dft Z0) ?So' //.
      case: (nth _ out i) => t [a b v]. case: (nth _ out' i) => t' [a' b' v'] /= -> -> -> [-> ->] [-> ->]. by [].
    - apply: (@eq_from_nth _ 0%N); first by rewrite U U'. move=> i. rewrite U => Hi.
      have Hi' : (i.+1 < size d)%N by move: Hi; case: (size d).
      have [_ ->] := L1_steps Hs Hl H Hi'. have [_ ->] := L1_steps Hs' Hl H' Hi'. by rewrite Hm // ltnW.
  Qed.
End Top.

Section More.
  Context (n : nat).
  Implicit Types (check : check_t n) (solve : theta_solver) (d out : list (Z * cframe n)).

  Lemma shrink_scale c (X Y : 'M[R]_n) lam : (0 < c)%re -> shrink (c *: X) (c *: Y) (c * lam)%re = c *: shrink X Y lam.
  Proof.
    move=> Hc. rewrite /shrink -scalerBr frobZ Rabs_right; last by lra. toR. case: Rle_dec => H; case: Rle_dec => H' //.
    - exfalso. apply: H'. exact: (Rmult_le_reg_l c).
    - exfalso. apply: H. apply: Rmult_le_compat_l => //. lra.
    - rewrite [RHS]scalerDr !scalerA. congr (_ + _ *: _). move: (frob _) => f. toR. eqR. case: (Req_dec f 0) => [E|E].
      + rewrite E !Rmult_0_r /Rdiv Rinv_0. ring.
      + field. lra.
  Qed.
  Lemma mat_rescale c d i : (i < size d)%N -> mat_at (rescale c d) i = c *: mat_at d i.
  Proof.
    move=> Hi. rewrite /mat_at /rescale -map_comp. pose dft : Z * cframe n := (Z0, mkC [::] [::] 0).
    by rewrite !(nth_map dft).
  Qed.
  Lemma L1_units c check check' solve solve' cols cols' d lam out ups out' ups' : minimises_theta solve -> minimises_theta solve' ->
    (0 <= lam)%re -> (0 < c)%re -> L1_smoothing check solve cols d lam = Ok (out, ups) ->
    L1_smoothing check' solve' cols' (rescale c d) (c * lam)%re = Ok (out', ups') ->
    ups' = ups /\ forall i, (i < size d)%N -> mat_at out' i = c *: mat_at out i.
  Proof.
    move=> Hs Hs' Hl Hc H H'. have Hl' : (0 <= c * lam)%re by nra.
    have Sd : size (rescale c d) = size d by rewrite size_map.
    have [_ [K [U [L E]]]] := L1_shape H. have [D0 [K' [U' [L' E']]]] := L1_shape H'.
    have Hm : forall i, (i < size d)%N -> mat_at out' i = c *: mat_at out i.
    { elim=> [|i IH] Hi; first by rewrite E' E mat_rescale.
      have [-> _] := L1_steps Hs Hl H Hi. have [-> _] := L1_steps Hs' Hl' H' (i := i) ltac:(by rewrite Sd).
      rewrite (IH (ltnW Hi)) (mat_rescale c Hi). exact: shrink_scale. }
    split=> //. apply: (@eq_from_nth _ 0%N); first by rewrite U' U Sd. move=> i. rewrite U' Sd => Hi.
    have Hi' : (i.+1 < size d)%N by move: Hi; case: (size d).
    have [_ ->] := L1_steps Hs Hl H Hi'. have [_ ->] := L1_steps Hs' Hl' H' (i := i) ltac:(by rewrite Sd).
    rewrite (Hm _ (ltnW Hi')) (mat_rescale c Hi') -scalerBr frobZ Rabs_right; last by lra. case: Rle_dec => H1; case: Rle_dec => H2 //.
    - exfalso. apply: H2. exact: (Rmult_le_reg_l c).
    - exfalso. apply: H1. apply: Rmult_le_compat_l => //. lra.
  Qed.
  Lemma L1_zero check solve cols d out ups : minimises_theta solve ->
    L1_smoothing check solve cols d 0%re = Ok (out, ups) -> forall i, (i < size d)%N -> mat_at out i = mat_at d i.
  Proof.
    move=> Hs H i Hi. have := L1_track Hs (Rle_refl _) H Hi. rewrite distE => H1.
    have : frob (mat_at out i - mat_at d i) = 0 by have := frob_ge0 (mat_at out i - mat_at d i); toR; move=> H2; eqR; lra.
    move/frob_eq0 => /eqP. by rewrite subr_eq0 => /eqP.
  Qed.
  Lemma L1_const check solve cols d lam out ups : minimises_theta solve -> (0 <= lam)%re ->
    L1_smoothing check solve cols d lam = Ok (out, ups) -> (forall i, (i < size d)%N -> (dist (mat_at d 0) (mat_at d i) <= lam)%re) ->
    (forall i, (i < size d)%N -> mat_at out i = mat_at d 0) /\ ups = nseq (size d).-1 0%N.
  Proof.
    move=> Hs Hl H Hd. have [_ [_ [U [_ E]]]] := L1_shape H.
    have Hm : forall i, (i < size d)%N -> mat_at out i = mat_at d 0.
    { elim=> [|i IH] Hi //. have [-> _] := L1_steps Hs Hl H Hi. rewrite (IH (ltnW Hi)) /shrink. case: Rle_dec => // Hn. case: Hn.
      rewrite -distE. exact: Hd. }
    split=> //. apply: (@eq_from_nth _ 0%N); first by rewrite U size_nseq. move=> i. rewrite U => Hi.
    have Hi' : (i.+1 < size d)%N by move: Hi; case: (size d).
    have [_ ->] := L1_steps Hs Hl H Hi'. rewrite nth_nseq Hi (Hm _ (ltnW Hi')) -distE. case: Rle_dec => // Hn. by case: Hn; exact: Hd.
  Qed.
  Lemma loop_raise check solve lam prev Xs e : l1_loop check solve lam prev Xs = Raise e ->
    exists k l, (k < size Xs)%N /\ l1_loop check solve lam prev (take k Xs) = Ok l /\
      let Y := nth 0 (prev :: [seq q.1 | q <- l]) k in
      (lam < frob (Y - nth 0%R Xs k)%R)%re /\ get_next check solve (nth 0 Xs k) Y lam = Raise e.
  Proof.
    elim: Xs prev => [|X Xs IH] prev //=. case: Rle_dec => H.
    - case E : l1_loop => [rest|e'] //= [Ee]. rewrite Ee in E. have [k [l [Hk [Hl' HY]]]] := IH _ E.
      exists k.+1, ((prev, 0%N) :: l). rewrite /= Hl' /=. case: Rle_dec => // Hd; by split.
    - case G : get_next => [Y|e'] //=.
      + case E : l1_loop => [rest|e''] //= [Ee]. rewrite Ee in E. have [k [l [Hk [Hl' HY]]]] := IH _ E.
        exists k.+1, ((Y, 1%N) :: l). rewrite /=. case: Rle_dec => // Hd. by rewrite G /= Hl' /=.
      + move=> [Ee]. rewrite Ee in G. exists 0%N, [::]. split=> //. split=> //=. split=> //. lra.
  Qed.
  Lemma get_next_raise check solve X Y lam e : get_next check solve X Y lam = Raise e ->
    (e = ValueError /\ (check X = false \/ check Y = false)) \/ (check X /\ check Y /\ e = DCPError /\ (lam < 0)%re) \/
    (check X /\ check Y /\ e = SolverError /\ solve (fun theta => day_cost X Y lam (theta *: X + (1 - theta) *: Y)) = None).
  Proof.
    rewrite /get_next. case: (check X) => /=; last by case=> <-; left; split=> //; left.
    case: (check Y) => /=; last by case=> <-; left; split=> //; right.
    case: Rlt_dec => [H [<-]|Hn]; first by right; left. 
    have -> : (fun theta => day_cost X Y lam (theta *: X + (1 - theta) *: Y)) = get_next_objective X Y lam.
    { apply: FunctionalExtensionality.functional_extensionality => th. by rewrite objectiveE. }
    case: solve => //= [[<-]]. by right; right.
  Qed.
  Lemma L1_raise check solve cols d lam e : L1_smoothing check solve cols d lam = Raise e ->
    (d = [::] /\ e = IndexError) \/
    exists k out ups, (k.+1 < size d)%N /\ L1_smoothing check solve cols (take k.+1 d) lam = Ok (out, ups) /\
      let X := mat_at d k.+1 in let Y := mat_at out k in
      (lam < dist Y X)%re /\
      ((e = ValueError /\ (check X = false \/ check Y = false)) \/ (check X /\ check Y /\ e = DCPError /\ (lam < 0)%re) \/
       (check X /\ check Y /\ e = SolverError /\ solve (fun theta => day_cost X Y lam (theta *: X + (1 - theta) *: Y)) = None)).
  Proof.
    rewrite /L1_smoothing. case E0 : [seq c_val p.2 | p <- d] => [|X0 Xs].
    - case=> <-. left. split=> //. by case: (d) E0.
    - case E : l1_loop => [l|e'] //= [Ee]. rewrite Ee in E. right. have [k [l [Hk [Hl [Hd Hg]]]]] := loop_raise E.
      have Sd : size d = (size Xs).+1 by rewrite -(size_map (fun p => c_val p.2) d) E0.
      have Hsz := loop_size Hl.
      exists k. rewrite !map_take E0 /= Hl /=.
      have Sk : size (X0 :: [seq q.1 | q <- l]) = size (take k.+1 [seq p.1 | p <- d]).
      { by rewrite /= size_map Hsz !size_take size_map Sd Hk ltnS Hk. }
      have [Z1 Z2] := zip_vals cols Sk.
      eexists. eexists. split; first by rewrite Sd. split; first by reflexivity.
      rewrite /mat_at Z2 E0 distE /=. split=> //. exact: get_next_raise.
  Qed.

  (** frob_difference *)
  Lemma frob_loop_nth (prev : 'M[R]_n) l : [seq p.1 | p <- frob_loop prev l] = [seq p.1 | p <- l] /\
    forall i, (i < size l)%N -> nth None [seq p.2 | p <- frob_loop prev l] i =
      let S := nth 0 [seq p.2 | p <- l] i in let P := nth 0 (prev :: [seq p.2 | p <- l]) i in
      (if Req_EM_T (frob P) 0%re then None else Some (frob (S - P) / frob P)%re : option R).
  Proof.
    elim: l prev => [|[t S] l IH] prev //=. have [-> H] := IH S. split=> // [[|i]] //=. rewrite ltnS => Hi. exact: H.
  Qed.
  Lemma frob_diff_ok d : (0 < size d)%N -> exists l, frob_difference d = Ok l /\ [seq p.1 | p <- l] = behead [seq p.1 | p <- d] /\
    forall i, (i.+1 < size d)%N -> nth None [seq p.2 | p <- l] i =
      if Req_EM_T (frob (mat_at d i)) 0%re then None else Some (frob (mat_at d i.+1 - mat_at d i) / frob (mat_at d i))%re.
  Proof.
    case: d => [|p d] // _. rewrite /frob_difference /=. eexists. split; first by reflexivity.
    have [-> H] := frob_loop_nth (c_val p.2) [seq (p0.1, c_val p0.2) | p0 <- d]. split; first by rewrite -map_comp.
    move=> i. rewrite ltnS => Hi. rewrite H ?size_map //. rewrite /mat_at /= -!map_comp. by [].
  Qed.
End More.

(** An exact optimiser, to show that the contract can be met. *)
Definition is_argmin (f : R -> R) (t : R) : Prop := forall t', (f t <= f t')%re.
Definition exact_theta (f : R -> R) : option R :=
  let b := epsilon (inhabits false) (fun b : bool => b = true <-> exists t, is_argmin f t) in
  if b then Some (epsilon (inhabits 0%re) (is_argmin f)) else None.
Lemma exact_b f : epsilon (inhabits false) (fun b : bool => b = true <-> exists t, is_argmin f t) = true <-> exists t, is_argmin f t.
Proof.
  apply: (epsilon_spec (inhabits false) (fun b : bool => b = true <-> exists t, is_argmin f t)).
  case: (Classical_Prop.classic (exists t, is_argmin f t)) => H; [by exists true|exists false; by split].
Qed.
Lemma exact_theta_ok : minimises_theta exact_theta.
Proof.
  move=> f th. rewrite /exact_theta. have := exact_b f. case: (epsilon _ _) => // H [<-]. have : exists t, is_argmin f t by exact/H.
  exact: (epsilon_spec (inhabits 0%re) (is_argmin f)).
Qed.
Lemma exact_theta_total : always_solves exact_theta.
Proof. move=> f H. rewrite /exact_theta. have := exact_b f. case: (epsilon _ _) => // H'. have := proj2 H' H. by []. Qed.

Section Diff.
  Context (n : nat).
  Lemma frob_diff_scale c (d : list (Z * cframe n)) : c <> 0%re -> frob_difference (rescale c d) = frob_difference d.
  Proof.
    move=> Hc. rewrite /frob_difference /rescale -map_comp. case: d => [|p d] //=. congr Ok.
    have Hk : (Rabs c <> 0)%re by apply: Rabs_no_R0.
    elim: d p => [|q d IH] p //=. congr (_ :: _); last exact: IH. congr (_, _).
    rewrite -scalerBr !frobZ. move: (frob (c_val p.2)) (frob (c_val q.2 - c_val p.2)) (Rabs c) Hk => a b k Hk. case: Req_EM_T => H1; case: Req_EM_T => H2 //.
    - exfalso. apply: H2. by case: (Rmult_integral _ _ H1).
    - exfalso. apply: H1. rewrite H2. ring.
    - congr Some. toR. eqR. field. by split.
  Qed.
  Lemma diff_values (d : list (Z * cframe n)) : (0 < size d)%N -> exists l, frob_difference d = Ok l /\ [seq p.1 | p <- l] = behead [seq p.1 | p <- d] /\
    forall i, (i.+1 < size d)%N ->
      (mat_at d i = 0 -> nth None [seq p.2 | p <- l] i = None) /\
      (mat_at d i <> 0 -> nth None [seq p.2 | p <- l] i = Some (dist (mat_at d i.+1) (mat_at d i) / dist (mat_at d i) 0)%re).
  Proof.
    move=> Hd. have [l [E [T H]]] := frob_diff_ok Hd. exists l. split=> //. split=> // i Hi. rewrite (H i Hi) !distE subr0. split=> H0.
    - rewrite H0 frob0. by case: Req_EM_T.
    - case: Req_EM_T => // H1. by case: H0; exact: frob_eq0.
  Qed.
  Lemma diff_smoothed (check : check_t n) (solve : theta_solver) cols d lam out ups : minimises_theta solve -> (0 <= lam)%re ->
    L1_smoothing check solve cols d lam = Ok (out, ups) -> exists l, frob_difference out = Ok l /\ size l = size ups /\
    forall i, (i < size ups)%N -> mat_at out i <> 0 -> exists v, nth None [seq p.2 | p <- l] i = Some v /\ (v = 0%re <-> nth 0%N ups i = 0%N).
  Proof.
    move=> Hs Hl H. have [D0 [K [U [_ _]]]] := L1_shape H. have So : size out = size d by rewrite -(size_map fst d) -K size_map.
    have [|l [E [T Hv]]] := @diff_values out; first by rewrite So. exists l. split=> //. split.
    { by rewrite U -So -(size_map fst l) T size_behead size_map. }
    move=> i Hi H0. have Hi' : (i.+1 < size d)%N by move: Hi; rewrite U; case: (size d).
    have [|_ Hv'] := Hv i; first by rewrite So. eexists. split; first exact: Hv' H0.
    have Hn : (frob (mat_at out i) <> 0)%re by move=> Hf; apply: H0; exact: frob_eq0.
    rewrite !distE subr0. have [E1 E2] := L1_steps Hs Hl H Hi'. rewrite E2. split.
    - move=> Hq. case: Rle_dec => // Hd. have Hf : frob (mat_at out i.+1 - mat_at out i) = 0%re.
      { move: Hn Hq. move: (frob (mat_at out i)) (frob (mat_at out i.+1 - mat_at out i)) => a b Hn Hq. have -> : b = (b / a * a)%re by field. rewrite Hq. ring. }
      have := frob_eq0 Hf => /eqP. rewrite subr_eq0 E1 => /eqP Hc. by case: (@shrink_moves n lam (mat_at d i.+1) (mat_at out i) Hl ltac:(lra)).
    - case: Rle_dec => // Hd _. rewrite E1 /shrink. case: Rle_dec => [Hd'|[]] //. rewrite frob_sub0 /Rdiv. exact: Rmult_0_l.
  Qed.
End Diff.
