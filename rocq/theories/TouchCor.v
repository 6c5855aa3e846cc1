(* connectivity_extraction_90: from histories of insertions to the graph. *)
From Coq Require Import QArith.
From Verif Require Import Base Scan90Spec BoolOpModel VertexLemmas ScanMap ScanProcess ScanStep Set90Spec Set90Model
  Set90Lemmas Set90Proofs Set90History Set90Cor TouchSpec TouchModel TouchStep TouchEvent TouchPop TouchSweep.
Open Scope Z_scope.

(* ---------- cells and points ---------- *)
Definition near_cells (R S : Z -> Z -> Prop) : Prop :=
  exists x y x' y', R x y /\ S x' y' /\ near x x' /\ near y y'.

Lemma near_of_point x x' (q : Q) : (inject_Z x <= q <= inject_Z (x + 1))%Q -> (inject_Z x' <= q <= inject_Z (x' + 1))%Q ->
  near x x'.
Proof.
  intros [H1 H2] [H3 H4].
  assert (A : (inject_Z x <= inject_Z (x' + 1))%Q) by (eapply Qle_trans; eassumption).
  assert (B : (inject_Z x' <= inject_Z (x + 1))%Q) by (eapply Qle_trans; eassumption).
  rewrite <- Zle_Qle in A, B. unfold near. lia.
Qed.
Lemma point_of_near x x' : near x x' ->
  (inject_Z x <= inject_Z (Z.max x x') <= inject_Z (x + 1))%Q /\ (inject_Z x' <= inject_Z (Z.max x x') <= inject_Z (x' + 1))%Q.
Proof. intros H. unfold near in H. rewrite <- !Zle_Qle. lia. Qed.

Lemma share_point_near R S : share_point R S <-> near_cells R S.
Proof.
  split.
  - intros [[px py] [[x [y [Hr [H1 H2]]]] [x' [y' [Hs [H3 H4]]]]]]. cbn [fst snd] in *.
    exists x, y, x', y'. conj; [apply (near_of_point x x' px)|apply (near_of_point y y' py)]; assumption.
  - intros [x [y [x' [y' [Hr [Hs [Hx Hy]]]]]]].
    destruct (point_of_near x x' Hx) as [X1 X2]. destruct (point_of_near y y' Hy) as [Y1 Y2].
    exists (inject_Z (Z.max x x'), inject_Z (Z.max y y')). split.
    + exists x, y. split; [exact Hr|]. split; assumption.
    + exists x', y'. split; [exact Hs|]. split; assumption.
Qed.

(* ---------- the data of the object ---------- *)
Lemma nthZ_app {A : Type} (l : list A) a i : nthZ (l ++ [a]) i = if i =? Z.of_nat (length l) then Some a else nthZ l i.
Proof.
  unfold nthZ. destruct (Z.ltb_spec i 0) as [H|H].
  - destruct (Z.eqb_spec i (Z.of_nat (length l))); [lia|reflexivity].
  - destruct (Z.eqb_spec i (Z.of_nat (length l))) as [E|E].
    + subst i. rewrite Nat2Z.id. rewrite nth_error_app2 by lia. rewrite Nat.sub_diag. reflexivity.
    + destruct (Z.ltb_spec i (Z.of_nat (length l))) as [H1|H1].
      * apply nth_error_app1. lia.
      * rewrite (proj2 (nth_error_None l (Z.to_nat i))) by lia. apply nth_error_None. rewrite app_length. cbn [length]. lia.
Qed.
Lemma nthZ_range {A : Type} (l : list A) i a : nthZ l i = Some a -> 0 <= i < Z.of_nat (length l).
Proof.
  unfold nthZ. destruct (Z.ltb_spec i 0) as [H|H]; [discriminate|]. intros E.
  assert (Hs : nth_error l (Z.to_nat i) <> None) by congruence. apply nth_error_Some in Hs. lia.
Qed.
Lemma nthZ_In {A : Type} (l : list A) i a : nthZ l i = Some a -> In a l.
Proof. unfold nthZ. destruct (i <? 0); [discriminate|]. apply nth_error_In. Qed.

Definition good_cells (V : list vertex) : Prop :=
  StronglySorted pos_le V /\ closed V /\ forall x y, cnt V x y = 0 \/ cnt V x y = 1.

Definition conn_ok (c : conn) (Vs : list (list vertex)) : Prop :=
  cn_count c = Z.of_nat (length Vs) /\ tok (fst (cn_data c)) /\ tok (snd (cn_data c)) /\
  forall lead i x y, on (side lead (cn_data c)) i x y =
    match nthZ Vs i with Some V => sgn lead (dcol V x y) | None => false end.

Lemma conn_ok_new : conn_ok conn_new [].
Proof.
  split; [reflexivity|]. split; [split; constructor|]. split; [split; constructor|].
  intros lead i x y. replace (nthZ (@nil (list vertex)) i) with (@None (list vertex)).
  - destruct lead; reflexivity.
  - unfold nthZ. destruct (i <? 0); [reflexivity|]. destruct (Z.to_nat i); reflexivity.
Qed.

Lemma conn_ok_insert c Vs s s1 : conn_ok c Vs -> ps_clean s = Some s1 -> good_cells (ps_data s1) ->
  exists c', conn_insert c s = Some (Z.of_nat (length Vs), c') /\ conn_ok c' (Vs ++ [ps_data s1]).
Proof.
  intros [H1 [H2 [H3 H4]]] E [G1 [[G2 _] _]]. unfold conn_insert. rewrite E. cbn [bind].
  eexists. split; [rewrite <- H1; reflexivity|].
  destruct (populate_spec INT_MAX (cn_data c) (ps_data s1) (cn_count c) H2 H3 G1 G2) as [K1 [K2 K3]].
  { intros lead x y. rewrite H4, H1. destruct (nthZ Vs (Z.of_nat (length Vs))) as [V|] eqn:En; [|reflexivity].
    apply nthZ_range in En. lia. }
  split; [cbn [cn_count]; rewrite app_length; cbn [length]; lia|].
  split; [exact K1|]. split; [exact K2|]. intros lead i x y. cbn [cn_data]. rewrite K3, nthZ_app, H1.
  destruct (i =? Z.of_nat (length Vs)); [reflexivity|apply H4].
Qed.

Definition cellsof (Vs : list (list vertex)) (i x y : Z) : bool :=
  match nthZ Vs i with Some V => cnt V x y >? 0 | None => false end.

Lemma bounded_all Vs : Forall (fun V => closed V) Vs ->
  exists M, forall V, In V Vs -> forall x y, x < - M \/ M < x -> cnt V x y = 0.
Proof.
  induction 1 as [|V Vs H _ [M HM]]; [exists 0; intros V []|].
  destruct (proj1 (closed_bounded V) H) as [M1 HM1].
  exists (Z.max M M1). intros W [<-|HW] x y Hx; [apply HM1; lia|apply (HM W HW); lia].
Qed.

Lemma conn_extract_ok c Vs g : conn_ok c Vs -> Forall good_cells Vs -> (length Vs <= length g)%nat ->
  exists g', conn_extract c g = Some g' /\
    adds g g' (fun a b => a <> b /\ exists V W, nthZ Vs a = Some V /\ nthZ Vs b = Some W /\
                 near_cells (fun x y => 0 < cnt V x y) (fun x y => 0 < cnt W x y)).
Proof.
  intros [H1 [H2 [H3 H4]]] HV Hl.
  assert (Hcl : Forall (fun V => closed V) Vs) by (eapply Forall_impl; [|exact HV]; intros V HVV; apply HVV).
  destruct (performTouch_spec (cellsof Vs) (Z.of_nat (length Vs))) with (d := cn_data c) (g := g) as [g' [E A]].
  - intros i x y. unfold cellsof. destruct (nthZ Vs i) eqn:En; [|discriminate]. intros _. eapply nthZ_range; exact En.
  - destruct (bounded_all Vs Hcl) as [M HM]. exists M. intros i x y Hx. unfold cellsof.
    destruct (nthZ Vs i) as [V|] eqn:En; [|reflexivity]. rewrite (HM V (nthZ_In _ _ _ En)) by exact Hx. reflexivity.
  - exact H2.
  - exact H3.
  - intros i x y. pose proof (H4 true i x y) as H. cbn [side] in H. rewrite H. unfold ldg, cellsof.
    destruct (nthZ Vs i) as [V|] eqn:En; [|reflexivity]. rewrite dcol_cnt. cbn [sgn].
    rewrite Forall_forall in HV. destruct (HV V (nthZ_In _ _ _ En)) as [_ [_ G]].
    destruct (G x y) as [-> | ->], (G (x - 1) y) as [-> | ->]; reflexivity.
  - intros i x y. pose proof (H4 false i x y) as H. cbn [side] in H. rewrite H. unfold trl, cellsof.
    destruct (nthZ Vs i) as [V|] eqn:En; [|reflexivity]. rewrite dcol_cnt. cbn [sgn].
    rewrite Forall_forall in HV. destruct (HV V (nthZ_In _ _ _ En)) as [_ [_ G]].
    destruct (G x y) as [-> | ->], (G (x - 1) y) as [-> | ->]; reflexivity.
  - intros i Hi. unfold gvalid. lia.
  - exists g'. split; [exact E|]. eapply adds_iff; [|exact A]. intros a b. cbn beta.
    unfold touching, cellsof, near_cells. split.
    + intros [Hab [x [y [x' [y' [Ha [Hb [Hx Hy]]]]]]]]. split; [exact Hab|].
      destruct (nthZ Vs a) as [V|]; [|discriminate Ha]. destruct (nthZ Vs b) as [W|]; [|discriminate Hb].
      exists V, W. split; [reflexivity|]. split; [reflexivity|]. exists x, y, x', y'. conj; lia.
    + intros [Hab [V [W [Ha [Hb [x [y [x' [y' [Hv [Hw [Hx Hy]]]]]]]]]]]]. split; [exact Hab|].
      rewrite Ha, Hb. exists x, y, x', y'. conj; lia.
Qed.

(* ---------- histories ---------- *)

Lemma legal_ok s : legal_set s -> ps_ok s.
Proof. intros [st [i [Hr ->]]]. apply reachable_ok. exact Hr. Qed.

Lemma wind01 o V : (forall x y, wind o V x y = 0 \/ wind o V x y = 1) -> forall x y, cnt V x y = 0 \/ cnt V x y = 1.
Proof. destruct o; cbn [wind]; intros H x y; [apply (H y x)|apply (H x y)]. Qed.

Lemma clean_cells s : ps_ok s -> exists s1, ps_clean s = Some s1 /\ good_cells (ps_data s1) /\
  (forall x y, 0 < wind (ps_orient s) (ps_data s1) x y <-> ps_covers s x y).
Proof.
  intros H. destruct (ps_clean_spec s H) as [s1 [E [K2 [K3 [_ [_ [K6 K7]]]]]]].
  exists s1. split; [exact E|].
  assert (W : forall x y, wind (ps_orient s) (ps_data s1) x y = b2z (ps_count s x y >? 0)).
  { intros x y. unfold ps_count. exact (wind_map _ _ _ (fun c => b2z (c >? 0)) x y K7). }
  split.
  - split; [apply canonical_sorted; exact K6|]. split; [apply (ok_closed _ K2)|].
    apply (wind01 (ps_orient s)). intros x y. rewrite W. apply b2z_01.
  - intros x y. rewrite W. unfold ps_covers. destruct (Z.gtb_spec (ps_count s x y) 0); cbn [b2z]; lia.
Qed.

Lemma near_cells_swap R S : near_cells R S <-> near_cells (fun x y => R y x) (fun x y => S y x).
Proof.
  split; intros [x [y [x' [y' [H1 [H2 [H3 H4]]]]]]]; exists y, x, y', x'; conj.
Qed.
Lemma near_cells_iff R R' S S' : (forall x y, R x y <-> R' x y) -> (forall x y, S x y <-> S' x y) ->
  near_cells R S -> near_cells R' S'.
Proof.
  intros HR HS [x [y [x' [y' [H1 [H2 [H3 H4]]]]]]]. exists x, y, x', y'. conj; [apply HR|apply HS]; assumption.
Qed.

Definition cleaned (s : pset) (V : list vertex) : Prop :=
  good_cells V /\ forall x y, 0 < wind (ps_orient s) V x y <-> ps_covers s x y.

Lemma conn_inserts_ok l : forall c Vs, conn_ok c Vs -> Forall ps_ok l ->
  exists c' Ws, conn_inserts c l = Some (map Z.of_nat (seq (length Vs) (length l)), c') /\
    conn_ok c' (Vs ++ Ws) /\ Forall2 cleaned l Ws.
Proof.
  induction l as [|s l IH]; intros c Vs Hc Hl.
  - exists c, []. split; [reflexivity|]. rewrite app_nil_r. split; [exact Hc|constructor].
  - inversion Hl as [|s0 l0 H1 H2]; subst. destruct (clean_cells s H1) as [s1 [E [G C]]].
    destruct (conn_ok_insert c Vs s s1 Hc E G) as [c1 [E1 Hc1]].
    destruct (IH c1 _ Hc1 H2) as [c2 [Ws [E2 [Hc2 F]]]].
    exists c2, (ps_data s1 :: Ws). cbn [conn_inserts]. rewrite E1. cbn [bind]. rewrite E2. cbn [bind].
    split; [|split].
    + rewrite app_length. cbn [length seq map]. rewrite Nat.add_1_r. reflexivity.
    + rewrite <- app_assoc in Hc2. exact Hc2.
    + constructor; [split; [exact G|exact C]|exact F].
Qed.

Lemma Forall2_nthZ {A B : Type} (P : A -> B -> Prop) l m : Forall2 P l m ->
  forall i b, nthZ m i = Some b -> exists a, nthZ l i = Some a /\ P a b.
Proof.
  intros H i b. unfold nthZ. destruct (i <? 0); [discriminate|]. generalize (Z.to_nat i). clear i.
  induction H as [|a b0 l m H1 _ IH]; intros n E; [destruct n; discriminate E|].
  destruct n as [|n]; cbn [nth_error] in *.
  - assert (b0 = b) by congruence. subst. exists a. split; [reflexivity|exact H1].
  - apply IH. exact E.
Qed.
Lemma Forall2_nthZ' {A B : Type} (P : A -> B -> Prop) l m : Forall2 P l m ->
  forall i a, nthZ l i = Some a -> exists b, nthZ m i = Some b /\ P a b.
Proof.
  intros H i b. unfold nthZ. destruct (i <? 0); [discriminate|]. generalize (Z.to_nat i). clear i.
  induction H as [|a b0 l m H1 _ IH]; intros n E; [destruct n; discriminate E|].
  destruct n as [|n]; cbn [nth_error] in *.
  - assert (a = b) by congruence. subst. exists b0. split; [reflexivity|exact H1].
  - apply IH. exact E.
Qed.

(* the pairs of nodes with touching cells are those whose regions touch *)
Lemma pairs_cor l Ws o : Forall (fun s => ps_orient s = o) l -> Forall2 cleaned l Ws -> forall a b,
  (exists V W, nthZ Ws a = Some V /\ nthZ Ws b = Some W /\
     near_cells (fun x y => 0 < cnt V x y) (fun x y => 0 < cnt W x y)) <->
  (exists s t, nthZ l a = Some s /\ nthZ l b = Some t /\ share_point (ps_covers s) (ps_covers t)).
Proof.
  intros Ho F a b. rewrite Forall_forall in Ho.
  assert (Hsame : forall s t V W, In s l -> In t l -> cleaned s V -> cleaned t W ->
            (near_cells (fun x y => 0 < cnt V x y) (fun x y => 0 < cnt W x y) <-> share_point (ps_covers s) (ps_covers t))).
  { intros s t V W Hs Ht [_ CV] [_ CW]. rewrite share_point_near.
    rewrite (Ho s Hs) in CV. rewrite (Ho t Ht) in CW. destruct o; cbn [wind] in CV, CW.
    - rewrite (near_cells_swap (ps_covers s)). split; apply near_cells_iff; intros x y;
        first [apply CV|apply CW|symmetry; apply CV|symmetry; apply CW].
    - split; apply near_cells_iff; intros x y; first [apply CV|apply CW|symmetry; apply CV|symmetry; apply CW]. }
  split.
  - intros [V [W [Ha [Hb Hn]]]].
    destruct (Forall2_nthZ _ _ _ F a V Ha) as [s [Hs Cs]]. destruct (Forall2_nthZ _ _ _ F b W Hb) as [t [Ht Ct]].
    exists s, t. split; [exact Hs|]. split; [exact Ht|].
    apply (Hsame s t V W); try assumption; eapply nthZ_In; eassumption.
  - intros [s [t [Hs [Ht Hn]]]].
    destruct (Forall2_nthZ' _ _ _ F a s Hs) as [V [Ha Cs]]. destruct (Forall2_nthZ' _ _ _ F b t Ht) as [W [Hb Ct]].
    exists V, W. split; [exact Ha|]. split; [exact Hb|].
    apply (Hsame s t V W); try assumption; eapply nthZ_In; eassumption.
Qed.

Theorem connectivity_cor l o : Forall legal_set l -> Forall (fun s => ps_orient s = o) l ->
  exists c, conn_inserts conn_new l = Some (map Z.of_nat (seq 0 (length l)), c) /\
    forall g, (length l <= length g)%nat ->
      exists g', conn_extract c g = Some g' /\ length g' = length g /\
        forall a b, edge g' a b <-> edge g a b \/
          (a <> b /\ exists s t, nthZ l a = Some s /\ nthZ l b = Some t /\ share_point (ps_covers s) (ps_covers t)).
Proof.
  intros Hl Ho. destruct (conn_inserts_ok l conn_new [] conn_ok_new (Forall_impl _ legal_ok Hl)) as [c [Ws [E [Hc F]]]].
  exists c. split; [exact E|]. intros g Hg. cbn [app] in Hc.
  assert (HL : length l = length Ws) by (clear - F; induction F as [|s V l Ws _ _ IH]; [reflexivity|cbn [length]; lia]).
  assert (HG : Forall good_cells Ws).
  { clear - F. induction F as [|s V l Ws H _ IH]; constructor; [apply H|exact IH]. }
  destruct (conn_extract_ok c Ws g Hc HG) as [g' [E' [A1 A2]]]; [lia|].
  exists g'. split; [exact E'|]. split; [exact A1|]. intros a b. rewrite A2.
  apply or_iff_compat_l. apply and_iff_compat_l. apply (pairs_cor l Ws o Ho F).
Qed.
