(** * Depth camera: z-buffer and map sizes, for every scalar type *)
From Coq Require Import ZArith NArith List Bool Lia Reals Lra Permutation.
From Verif Require Import Num NumOrd MathTypes Outcome Mesh P_Tac Depth P_Depth P_Laser2.
Import ListNotations.

Section Grid.
  Context {A : Type}.
  Lemma upd_same : forall (l : list A) i a, (i < length l)%nat -> nth_error (upd l i a) i = Some a.
  Proof. induction l as [|b l IH]; intros [|i] a H; cbn in *; try lia; auto. apply IH. lia. Qed.
  Lemma upd_other : forall (l : list A) i j a, i <> j -> nth_error (upd l i a) j = nth_error l j.
  Proof. induction l as [|b l IH]; intros [|i] [|j] a H; cbn; auto; try congruence. Qed.
  Lemma upd_length : forall (l : list A) i a, length (upd l i a) = length l.
  Proof. induction l as [|b l IH]; intros [|i] a; cbn; auto. Qed.
End Grid.
Lemma get2_inv : forall A (m : list (list A)) i j a, get2 m i j = Ret a <-> (0 <= i)%Z /\ (0 <= j)%Z /\ exists r, nth_error m (Z.to_nat i) = Some r /\ nth_error r (Z.to_nat j) = Some a.
Proof.
  intros A m i j a. unfold get2. destruct (Z.leb_spec 0 i) as [I|I]; [|split; [discriminate|lia]]. destruct (Z.leb_spec 0 j) as [J|J]; [|split; [discriminate|lia]]. cbn [andb].
  destruct (nth_error m (Z.to_nat i)) as [r|]; cbn [or_ub obind]; [|split; [discriminate|intros [_ [_ [r [E _]]]]; discriminate]].
  destruct (nth_error r (Z.to_nat j)) as [b|] eqn:E; cbn [or_ub]; split.
  - intros H. injection H as ->. split; auto. split; auto. exists r. auto.
  - intros [_ [_ [r' [H1 H2]]]]. congruence.
  - discriminate.
  - intros [_ [_ [r' [H1 H2]]]]. congruence.
Qed.
Lemma set2_spec : forall A (m m' : list (list A)) i j b, set2 m i j b = Ret m' ->
  (exists a, get2 m i j = Ret a) /\ get2 m' i j = Ret b /\ (forall i' j', (i', j') <> (i, j) -> get2 m' i' j' = get2 m i' j') /\ length m' = length m.
Proof.
  intros A m m' i j b H. unfold set2 in H. destruct (get2 m i j) as [a| | |] eqn:G; try discriminate. cbn [obind] in H. injection H as <-.
  split; eauto. apply get2_inv in G as [I [J [r [R1 R2]]]].
  assert (LI : (Z.to_nat i < length m)%nat) by (apply nth_error_Some; congruence). assert (LJ : (Z.to_nat j < length r)%nat) by (apply nth_error_Some; congruence).
  assert (NR : nth (Z.to_nat i) m [] = r) by (apply nth_error_nth; auto). rewrite NR.
  split; [|split].
  - apply get2_inv. split; auto. split; auto. exists (upd r (Z.to_nat j) b). split; apply upd_same; auto.
  - intros i' j' NE. unfold get2. destruct (Z.leb_spec 0 i'); auto. destruct (Z.leb_spec 0 j'); auto. cbn [andb].
    destruct (Z.eq_dec i' i) as [->|D].
    + rewrite upd_same by auto. rewrite R1. cbn [or_ub obind]. rewrite upd_other; auto. intros E. apply NE. f_equal. lia.
    + rewrite upd_other by lia. reflexivity.
  - apply upd_length.
Qed.
Lemma set2_ex : forall A (m : list (list A)) i j b, (exists a, get2 m i j = Ret a) -> exists m', set2 m i j b = Ret m'.
Proof. intros A m i j b [a G]. unfold set2. rewrite G. cbn. eauto. Qed.
(** every position of an image of c columns and r rows is stored (first index below c, second below r) *)
Definition sized {A : Type} (m : list (list A)) (c r : Z) : Prop := forall i j, (0 <= i < c)%Z -> (0 <= j < r)%Z -> exists a, get2 m i j = Ret a.

Section ZBuffer.
  Context {T : Type} {NT : Num T} {NO : NumOrd T}.
  (** all maps cover the image *)
  Definition drr_ok (s : drr T) (w h : Z) : Prop :=
    sized (d_img s) h w /\ (d_ptr s <> None -> sized (d_pmap s) w h) /\ (d_tmap s <> [] -> sized (d_tmap s) w h).
  Definition wins (old d : T) : bool := (neqb old n0 || nltb d old)%bool.
  Lemma pixel_spec : forall (s s' : drr T) p, renderPixel s p = Ret s' -> exists old, get2 (d_img s) (px_y p) (px_x p) = Ret old /\
    d_ptr s' = d_ptr s /\ (d_tmap s' = [] <-> d_tmap s = []) /\
    (forall x y, (x, y) <> (px_x p, px_y p) -> get2 (d_img s') y x = get2 (d_img s) y x /\ get2 (d_pmap s') x y = get2 (d_pmap s) x y /\ get2 (d_tmap s') x y = get2 (d_tmap s) x y) /\
    (if wins old (px_d p) then get2 (d_img s') (px_y p) (px_x p) = Ret (px_d p) /\
       match d_ptr s with Some q => get2 (d_pmap s') (px_x p) (px_y p) = Ret (Some q) | None => d_pmap s' = d_pmap s end /\
       (d_tmap s <> [] -> get2 (d_tmap s') (px_x p) (px_y p) = Ret (px_i p))
     else s' = s).
  Proof.
    intros s s' p H. unfold renderPixel in H. destruct (get2 (d_img s) (px_y p) (px_x p)) as [old| | |] eqn:G; try discriminate. cbn [obind] in H.
    exists old. split; auto. unfold wins. destruct (_ || _)%bool eqn:W.
    2:{ injection H as <-. repeat split; auto. }
    destruct (set2 (d_img s) _ _ _) as [im| | |] eqn:SI; try discriminate. cbn [obind] in H. apply set2_spec in SI as [_ [S1 [S2 _]]].
    assert (P : exists pm, match d_ptr s with Some _ => set2 (d_pmap s) (px_x p) (px_y p) (d_ptr s) | None => Ret (d_pmap s) end = Ret pm).
    { destruct (match d_ptr s with Some _ => _ | None => _ end) as [pm| | |] eqn:E; try discriminate. eauto. }
    destruct P as [pm P]. rewrite P in H. cbn [obind] in H.
    assert (Q : exists tm, match d_tmap s with [] => Ret [] | _ :: _ => set2 (d_tmap s) (px_x p) (px_y p) (px_i p) end = Ret tm).
    { destruct (match d_tmap s with [] => _ | _ :: _ => _ end) as [tm| | |] eqn:E; try discriminate. eauto. }
    destruct Q as [tm Q]. rewrite Q in H. cbn [obind] in H. injection H as <-. cbn [d_img d_ptr d_pmap d_tmap].
    assert (PS : (forall x y, (x, y) <> (px_x p, px_y p) -> get2 pm x y = get2 (d_pmap s) x y) /\ match d_ptr s with Some q => get2 pm (px_x p) (px_y p) = Ret (Some q) | None => pm = d_pmap s end).
    { destruct (d_ptr s) as [q|].
      - apply set2_spec in P as [_ [P1 [P2 _]]]. auto.
      - injection P as <-. auto. }
    assert (QS : (forall x y, (x, y) <> (px_x p, px_y p) -> get2 tm x y = get2 (d_tmap s) x y) /\ (tm = [] <-> d_tmap s = []) /\ (d_tmap s <> [] -> get2 tm (px_x p) (px_y p) = Ret (px_i p))).
    { destruct (d_tmap s) as [|c0 cs] eqn:TM.
      - injection Q as <-. split; auto. split; [tauto|congruence].
      - apply set2_spec in Q as [_ [Q1 [Q2 Q3]]]. split; auto. split; [|auto]. split; [|discriminate]. intros ->. discriminate. }
    destruct PS as [PS1 PS2]. destruct QS as [QS1 [QS2 QS3]]. split; auto. split; auto. split; [|split; auto].
    intros x y NE. split; [|split; auto]. apply S2. intros E. apply NE. congruence.
  Qed.
  Lemma pixel_ret : forall (s : drr T) w h p, drr_ok s w h -> in_image w h p -> exists s', renderPixel s p = Ret s' /\ drr_ok s' w h.
  Proof.
    intros s w h p [A [B C]] [X Y].
    assert (E : exists s', renderPixel s p = Ret s').
    { unfold renderPixel. destruct (A _ _ Y X) as [old G]. rewrite G. cbn [obind]. destruct (_ || _)%bool; [|eauto].
      destruct (set2_ex _ (d_img s) (px_y p) (px_x p) (px_d p)) as [im ->]; eauto. cbn [obind].
      assert (P : exists pm, match d_ptr s with Some _ => set2 (d_pmap s) (px_x p) (px_y p) (d_ptr s) | None => Ret (d_pmap s) end = Ret pm).
      { destruct (d_ptr s) as [q|]; [|eauto]. apply set2_ex. apply B; auto. discriminate. }
      destruct P as [pm ->]. cbn [obind].
      assert (Q : exists tm, match d_tmap s with [] => Ret [] | _ :: _ => set2 (d_tmap s) (px_x p) (px_y p) (px_i p) end = Ret tm).
      { destruct (d_tmap s) as [|c0 cs]; [eauto|]. apply set2_ex. apply C; auto. discriminate. }
      destruct Q as [tm ->]. cbn [obind]. eauto. }
    destruct E as [s' E]. exists s'. split; auto. destruct (pixel_spec _ _ _ E) as [old [G [EP [ET [O W]]]]].
    destruct (wins old (px_d p)); [|subst; repeat split; auto]. destruct W as [W1 [W2 W3]]. split; [|split].
    - intros i j I J. destruct (Z.eq_dec i (px_y p)) as [->|D]; [destruct (Z.eq_dec j (px_x p)) as [->|D]|]; eauto; (destruct (O j) with (y := i) as [-> _] || destruct (O j (px_y p)) as [-> _]); auto; congruence.
    - rewrite EP. intros NP. specialize (B NP). intros i j I J. destruct (d_ptr s) as [q|]; [|congruence].
      destruct (Z.eq_dec i (px_x p)) as [->|D]; [destruct (Z.eq_dec j (px_y p)) as [->|D]|]; eauto; (destruct (O i j) as [_ [-> _]] || destruct (O (px_x p) j) as [_ [-> _]]); auto; congruence.
    - intros NE. assert (NE' : d_tmap s <> []) by tauto. specialize (C NE'). intros i j I J.
      destruct (Z.eq_dec i (px_x p)) as [->|D]; [destruct (Z.eq_dec j (px_y p)) as [->|D]|]; eauto; (destruct (O i j) as [_ [_ ->]] || destruct (O (px_x p) j) as [_ [_ ->]]); auto; congruence.
  Qed.
  Lemma pixels_ret : forall ps (s : drr T) w h, drr_ok s w h -> (forall p, In p ps -> in_image w h p) -> exists s', draw_pixels renderPixel s ps = Ret s' /\ drr_ok s' w h.
  Proof.
    induction ps as [|p ps IH]; intros s w h OK IM; [exists s; auto|]. cbn [draw_pixels].
    destruct (pixel_ret s w h p OK) as [s1 [-> OK1]]; [apply IM; left; auto|]. cbn [obind]. apply (IH s1 w h OK1). intros q I. apply IM. right; auto.
  Qed.
  (** the pixel is as before, or holds the depth of one of the calls, together with its triangle and the pointer *)
  Definition cell_same (s s' : drr T) (x y : Z) : Prop :=
    get2 (d_img s') y x = get2 (d_img s) y x /\ get2 (d_pmap s') x y = get2 (d_pmap s) x y /\ get2 (d_tmap s') x y = get2 (d_tmap s) x y.
  Definition cell_from (s s' : drr T) (x y : Z) (p : pixel T) : Prop :=
    px_x p = x /\ px_y p = y /\ get2 (d_img s') y x = Ret (px_d p) /\
    match d_ptr s with Some q => get2 (d_pmap s') x y = Ret (Some q) | None => get2 (d_pmap s') x y = get2 (d_pmap s) x y end /\
    (d_tmap s <> [] -> get2 (d_tmap s') x y = Ret (px_i p)).
  Lemma pixels_const : forall ps (s s' : drr T), draw_pixels renderPixel s ps = Ret s' -> d_ptr s' = d_ptr s /\ (d_tmap s' = [] <-> d_tmap s = []).
  Proof.
    induction ps as [|p ps IH]; intros s s' H; [injection H as <-; tauto|]. cbn [draw_pixels] in H.
    destruct (renderPixel s p) as [s1| | |] eqn:E; try discriminate. cbn [obind] in H. destruct (IH _ _ H) as [A B]. destruct (pixel_spec _ _ _ E) as [old [_ [C [D _]]]].
    split; [congruence|tauto].
  Qed.
  Lemma pixels_untouched : forall ps (s s' : drr T) x y, draw_pixels renderPixel s ps = Ret s' -> (forall p, In p ps -> (px_x p, px_y p) <> (x, y)) -> cell_same s s' x y.
  Proof.
    induction ps as [|p ps IH]; intros s s' x y H U; [injection H as <-; repeat split; auto|]. cbn [draw_pixels] in H.
    destruct (renderPixel s p) as [s1| | |] eqn:E; try discriminate. cbn [obind] in H.
    destruct (IH s1 s' x y H) as [A1 [A2 A3]]; [intros q I; apply U; right; auto|].
    destruct (pixel_spec _ _ _ E) as [old [_ [_ [_ [O _]]]]]. destruct (O x y) as [B1 [B2 B3]]; [intros F; apply (U p); [left; auto|congruence]|].
    repeat split; congruence.
  Qed.
  Lemma pixels_spec : forall ps (s s' : drr T) x y (r r' : T), draw_pixels renderPixel s ps = Ret s' -> (forall p, In p ps -> real_range (px_d p)) ->
    get2 (d_img s) y x = Ret r -> get2 (d_img s') y x = Ret r' ->
    (cell_same s s' x y \/ exists p, In p ps /\ cell_from s s' x y p /\ wins r r' = true) /\
    (forall p, In p ps -> px_x p = x -> px_y p = y -> nltb (px_d p) r' = false) /\
    ((exists p, In p ps /\ px_x p = x /\ px_y p = y) -> neqb r' n0 = false) /\ (neqb r n0 = false -> nltb r r' = false).
  Proof.
    induction ps as [|p ps IH]; intros s s' x y r r' H RD G G'.
    - injection H as <-. assert (r' = r) by congruence. subst. split; [left; repeat split|]. split; [intros p []|]. split; [intros [p [[] _]]|]. intros _. apply nlt_irrefl.
    - cbn [draw_pixels] in H. destruct (renderPixel s p) as [s1| | |] eqn:E; try discriminate. cbn [obind] in H.
      assert (RD1 : real_range (px_d p)) by (apply RD; left; auto). assert (RD2 : forall q, In q ps -> real_range (px_d q)) by (intros q I; apply RD; right; auto).
      destruct (pixel_spec _ _ _ E) as [old [GO [EP [ET [O W]]]]].
      assert (DEC : {(x, y) = (px_x p, px_y p)} + {(x, y) <> (px_x p, px_y p)}) by (decide equality; apply Z.eq_dec). destruct DEC as [D|D].
      + injection D as -> ->. assert (old = r) by congruence. subst old. destruct (wins r (px_d p)) eqn:C.
        * destruct W as [W1 [W2 W3]]. destruct (IH s1 s' (px_x p) (px_y p) (px_d p) r' H RD2 W1 G') as [A [B [Z0 M]]]. destruct RD1 as [K1 K2]. specialize (M K2).
          assert (FR : cell_from s s1 (px_x p) (px_y p) p). { repeat split; auto. destruct (d_ptr s); congruence. }
          split; [|split; [|split]].
          -- right. destruct A as [[A1 [A2 A3]]|[q [I [Q CQ]]]].
             ++ exists p. split; [left; auto|]. split.
                ** destruct FR as [F1 [F2 [F3 [F4 F5]]]]. repeat split; auto; try congruence. { destruct (d_ptr s); congruence. } intros NE. rewrite A3. auto.
                ** assert (r' = px_d p) by congruence. congruence.
             ++ exists q. split; [right; auto|]. split.
                ** destruct Q as [Q1 [Q2 [Q3 [Q4 Q5]]]]. repeat split; auto. { rewrite EP in Q4. destruct (d_ptr s) as [k|]; auto. congruence. } intros NE. apply Q5. tauto.
                ** unfold wins in *. apply orb_true_iff in C. apply orb_true_iff in CQ. apply orb_true_iff. destruct C as [C|C]; auto. destruct CQ as [CQ|CQ]; [congruence|]. right.
                   apply nltb_key in C as [u [v [U [V L]]]]. apply nltb_key in CQ as [u' [v' [U' [V' L']]]]. assert (v' = u) by congruence. subst.
                   apply nltb_key. exists u', v. repeat split; auto. eapply ext_lt_trans; eauto.
          -- intros q [<-|I] X Y; auto.
          -- intros _. destruct A as [[A1 _]|[q [I [Q CQ]]]]; [assert (r' = px_d p) by congruence; subst; auto|]. destruct Q as [_ [_ [Q3 _]]]. assert (r' = px_d q) by congruence. subst. apply (RD2 q I).
          -- intros NZ. unfold wins in C. apply orb_true_iff in C as [C|C]; [congruence|]. apply nge_trans with (px_d p); auto. apply lt_none; auto.
        * subst s1. destruct (IH s s' (px_x p) (px_y p) r r' H RD2 G G') as [A [B [Z0 M]]]. unfold wins in C. apply orb_false_iff in C as [C1 C2]. specialize (M C1). split; [|split; [|split]].
          -- destruct A as [A|[q [I [Q CQ]]]]; auto. right. exists q. split; [right|]; auto.
          -- intros q [<-|I] X Y; [|auto].
             destruct (neqb r r) eqn:RR; [apply nge_trans with r; auto|].
             destruct (nltb (px_d p) r') eqn:LT; auto. exfalso. destruct A as [[A1 _]|[q [I [Q CQ]]]].
             ++ assert (r' = r) by congruence. subst. apply nltb_key in LT as [u [v [U [V L]]]]. assert (neqb r r = true) by (apply neqb_key; eauto). congruence.
             ++ unfold wins in CQ. apply orb_true_iff in CQ as [CQ|CQ]; [congruence|]. apply nltb_key in CQ as [u [v [U [V L]]]]. assert (neqb r r = true) by (apply neqb_key; eauto). congruence.
          -- intros _. destruct A as [[A1 _]|[q [I [Q CQ]]]]; [assert (r' = r) by congruence; subst; auto|]. destruct Q as [_ [_ [Q3 _]]]. assert (r' = px_d q) by congruence. subst. apply (RD2 q I).
          -- auto.
      + destruct (O x y D) as [O1 [O2 O3]]. rewrite <- O1 in G. destruct (IH s1 s' x y r r' H RD2 G G') as [A [B [Z0 M]]]. split; [|split; [|split]]; auto.
        * destruct A as [[A1 [A2 A3]]|[q [I [Q CQ]]]]; [left; repeat split; congruence|]. right. exists q. split; [right; auto|]. split; auto.
          destruct Q as [Q1 [Q2 [Q3 [Q4 Q5]]]]. repeat split; auto. { rewrite EP in Q4. destruct (d_ptr s) as [k|]; auto. congruence. } intros NE. apply Q5. tauto.
        * intros q [<-|I] X Y; [congruence|auto].
        * intros [q [[<-|I] [X Y]]]; [congruence|]. apply Z0. eauto.
  Qed.
End ZBuffer.
