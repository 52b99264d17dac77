(** Proofs about the adaptive sampler. *)
From Coq Require Import List Reals ZArith Lra Lia Sorting.Sorted Classical.
From Verif Require Import Base Sampler_Model.
Import ListNotations.
Open Scope R_scope.
Set Implicit Arguments.

Notation sorted := (StronglySorted Rlt).

(** Two points of [l] with none in between. *)
Definition adjacent (l : list R) (a b : R) :=
  In a l /\ In b l /\ a < b /\ forall c, In c l -> c <= a \/ b <= c.

(** * Sorted lists *)
Lemma sorted_head a l c : sorted (a :: l) -> In c l -> a < c.
Proof. intros H hc. inversion H as [|? ? _ F]. rewrite Forall_forall in F. auto. Qed.
Arguments sorted_head {a l c} _ _.

Lemma sorted_tail a l : sorted (a :: l) -> sorted l.
Proof. now inversion 1. Qed.

Lemma sorted_ext l l' : sorted l -> sorted l' -> (forall v, In v l <-> In v l') -> l = l'.
Proof.
  revert l'. induction l as [|a l IH]; intros [|b l'] hs hs' H; auto.
  - exfalso. apply (proj2 (H b)). now left.
  - exfalso. apply (proj1 (H a)). now left.
  - assert (hab : a = b).
    { destruct (proj1 (H a) (or_introl eq_refl)) as [e|e]; auto.
      destruct (proj2 (H b) (or_introl eq_refl)) as [e'|e']; auto.
      pose proof (sorted_head hs' e). pose proof (sorted_head hs e'). lra. }
    subst b. f_equal. apply IH; eauto using sorted_tail.
    intros v. split; intros hv.
    + destruct (proj1 (H v) (or_intror hv)) as [<-|]; auto.
      pose proof (sorted_head hs hv). lra.
    + destruct (proj2 (H v) (or_intror hv)) as [<-|]; auto.
      pose proof (sorted_head hs' hv). lra.
Qed.

Lemma uins_in a l v : In v (uins a l) <-> v = a \/ In v l.
Proof.
  induction l as [|b l IH]; simpl.
  - split; intros [h|h]; auto; easy.
  - destruct (Rlt_dec b a); simpl.
    + rewrite IH. tauto.
    + destruct (Req_EM_T a b) as [->|]; simpl; split; intros h; intuition.
Qed.

Lemma uins_sorted a l : sorted l -> sorted (uins a l).
Proof.
  induction l as [|b l IH]; intros H; simpl.
  - constructor; constructor.
  - destruct (Rlt_dec b a) as [h|h].
    + constructor; [apply IH; eauto using sorted_tail|].
      apply Forall_forall. intros v hv. apply uins_in in hv.
      destruct hv as [->|hv]; auto. now apply (sorted_head H).
    + destruct (Req_EM_T a b) as [->|n]; auto.
      constructor; auto. apply Forall_forall. intros v [<-|hv]; [lra|].
      pose proof (sorted_head H hv). lra.
Qed.

Lemma unique_in l v : In v (np_unique l) <-> In v l.
Proof.
  unfold np_unique. induction l as [|a l IH]; simpl; [tauto|]. rewrite uins_in, IH.
  split; intros [h|h]; auto.
Qed.

Lemma unique_sorted l : sorted (np_unique l).
Proof. unfold np_unique. induction l; simpl; [constructor|]. now apply uins_sorted. Qed.

Lemma sort_id l : sorted l -> np_sort l = l.
Proof.
  induction l as [|a l IH]; intros H; simpl; auto.
  rewrite IH by eauto using sorted_tail.
  destruct l as [|b l]; simpl; auto.
  pose proof (sorted_head H (or_introl eq_refl)).
  destruct (Rlt_dec b a); [lra|reflexivity].
Qed.

Lemma filter_sorted p l : sorted l -> sorted (filter p l).
Proof.
  induction l as [|a l IH]; intros H; simpl; auto.
  destruct (p a); [|eauto using sorted_tail].
  constructor; [eauto using sorted_tail|]. apply Forall_forall. intros v hv.
  apply filter_In in hv. now apply (sorted_head H).
Qed.

Lemma notin_spec old v : notin old v = true <-> ~ In v old.
Proof.
  unfold notin. rewrite Bool.negb_true_iff. split.
  - intros H h. assert (existsb (Reqb v) old = true); [|congruence].
    apply existsb_exists. exists v. split; auto. unfold Reqb. now destruct (Req_EM_T v v).
  - intros H. apply Bool.not_true_is_false. intros h. apply existsb_exists in h.
    destruct h as [w [hw e]]. unfold Reqb in e. destruct (Req_EM_T v w); [|easy]. now subst.
Qed.

(** * Minimum and maximum of a sorted list *)
Lemma fold_min l a : In (fold_left Rmin l a) (a :: l) /\ forall v, In v (a :: l) -> fold_left Rmin l a <= v.
Proof.
  revert a. induction l as [|b l IH]; intros a.
  - simpl. split; auto. intros v [<-|[]]. lra.
  - cbn [fold_left]. destruct (IH (Rmin a b)) as [h1 h2]. split.
    + destruct h1 as [h1|h1]; [|right; now right].
      unfold Rmin in h1 at 1. destruct (Rle_dec a b); rewrite <- h1; simpl; auto.
    + intros v [<-|[<-|hv]].
      * apply Rle_trans with (Rmin a b); [apply h2; now left|apply Rmin_l].
      * apply Rle_trans with (Rmin a b); [apply h2; now left|apply Rmin_r].
      * apply h2. now right.
Qed.

Lemma fold_max l a : In (fold_left Rmax l a) (a :: l) /\ forall v, In v (a :: l) -> v <= fold_left Rmax l a.
Proof.
  revert a. induction l as [|b l IH]; intros a.
  - simpl. split; auto. intros v [<-|[]]. lra.
  - cbn [fold_left]. destruct (IH (Rmax a b)) as [h1 h2]. split.
    + destruct h1 as [h1|h1]; [|right; now right].
      unfold Rmax in h1 at 1. destruct (Rle_dec a b); rewrite <- h1; simpl; auto.
    + intros v [<-|[<-|hv]].
      * apply Rle_trans with (Rmax a b); [apply Rmax_l|apply h2; now left].
      * apply Rle_trans with (Rmax a b); [apply Rmax_r|apply h2; now left].
      * apply h2. now right.
Qed.

(** * Windows *)
Lemma windows_map S T (g : S -> T) l :
  windows (map g l) = map (fun w => (g (fst (fst w)), g (snd (fst w)), g (snd w))) (windows l).
Proof.
  induction l as [|a [|b [|c l]] IH]; auto.
  change (map g (a :: b :: c :: l)) with (g a :: g b :: g c :: map g l).
  change (windows (a :: b :: c :: l)) with ((a, b, c) :: windows (b :: c :: l)).
  cbn [map]. rewrite <- IH. reflexivity.
Qed.

Lemma map_fst_combine S T (l : list S) (l' : list T) :
  length l = length l' -> map fst (combine l l') = l.
Proof.
  revert l'. induction l as [|a l IH]; intros [|b l'] H; try easy.
  simpl. f_equal. apply IH. now injection H.
Qed.

Lemma adjacent_cons a l b c : sorted (a :: l) -> adjacent l b c -> adjacent (a :: l) b c.
Proof.
  intros hs (hb & hc & h & H). repeat split; [now right|now right|auto|].
  intros d [<-|hd]; auto. left. left. now apply (sorted_head hs).
Qed.

Lemma adjacent_first a b l : sorted (a :: b :: l) -> adjacent (a :: b :: l) a b.
Proof.
  intros hs. repeat split; [now left|now (right; left)|apply (sorted_head hs); now left|].
  intros d [<-|[<-|hd]]; [left; lra|right; lra|right].
  pose proof (sorted_head (sorted_tail hs) hd). lra.
Qed.

Lemma windows_adj l a b c : sorted l -> In (a, b, c) (windows l) -> adjacent l a b /\ adjacent l b c.
Proof.
  induction l as [|u l IH]; [easy|]. intros hs.
  destruct l as [|v [|w l]]; [easy|easy|].
  change (windows (u :: v :: w :: l)) with ((u, v, w) :: windows (v :: w :: l)).
  intros [e|e].
  - injection e as <- <- <-. split; [now apply adjacent_first|].
    apply adjacent_cons; auto. apply adjacent_first. eauto using sorted_tail.
  - destruct (IH (sorted_tail hs) e). split; now apply adjacent_cons.
Qed.

(** * One refinement *)
Section Refine.
Context {Y : Type}.
Variable mon : Y -> R.
Variable multi : bool.
Variable f : R -> Y.
Variables (max_bend max_x_rel max_df : R).
Notation turn := (turn mon multi f max_bend max_x_rel max_df).
Notation get_new := (get_new max_bend max_x_rel max_df).
Notation loop := (loop mon multi f max_bend max_x_rel max_df).
Notation sampler := (sampler mon multi f max_bend max_x_rel max_df).

(** A list with smallest element [lo] and largest element [hi]. *)
Definition spans (l : list R) (lo hi : R) :=
  In lo l /\ In hi l /\ forall v, In v l -> lo <= v <= hi.

Lemma spans_exists l : l <> [] -> exists lo hi, spans l lo hi /\ np_min l = Ok lo /\ np_max l = Ok hi.
Proof.
  destruct l as [|a l]; [easy|]. intros _.
  exists (fold_left Rmin l a), (fold_left Rmax l a).
  destruct (fold_min l a) as [h1 h2]. destruct (fold_max l a) as [h3 h4].
  repeat split; auto.
Qed.

Lemma spans_uniq l lo hi lo' hi' : spans l lo hi -> spans l lo' hi' -> lo = lo' /\ hi = hi'.
Proof.
  intros (h1 & h2 & h3) (h1' & h2' & h3').
  pose proof (h3 _ h1'). pose proof (h3 _ h2'). pose proof (h3' _ h1). pose proof (h3' _ h2). lra.
Qed.

(** The cut segments are long enough. *)
Lemma segments_long mdx xp x0 xn s :
  ~ (xn - x0 < mdx /\ x0 - xp < mdx) -> In s (segments mdx xp x0 xn) ->
  mdx <= (if s then xn - x0 else x0 - xp).
Proof.
  intros H. unfold segments.
  destruct (Rlt_dec (x0 - xp) mdx), (Rlt_dec (xn - x0) mdx), (Rlt_dec (xn - x0) (x0 - xp));
    simpl; intros h; repeat (destruct h as [<-|h]); try easy; lra.
Qed.

Lemma get_new_mid x y lo hi : sorted x -> length x = length y -> x <> [] -> spans x lo hi ->
  exists nx, get_new x y = Ok nx /\ sorted nx /\
    forall v, In v nx -> exists a b, adjacent x a b /\ v = (a + b) / 2 /\ max_x_rel * (hi - lo) <= b - a.
Proof.
  intros hs hl hne hsp. unfold Sampler_Model.get_new. rewrite sort_id; auto.
  destruct (spans_exists hne) as (lo' & hi' & hsp' & e1 & e2).
  destruct (spans_uniq hsp hsp') as [<- <-]. rewrite e1, e2.
  assert (hy : y <> []) by (destruct y; [destruct x; easy|easy]).
  destruct (spans_exists hy) as (ly & hy' & _ & e3 & e4). rewrite e3, e4. cbn [bind].
  eexists. split; [reflexivity|]. split; [apply unique_sorted|].
  intros v hv. rewrite unique_in, in_flat_map in hv.
  destruct hv as [[[[xp yp] [x0 y0]] [xn yn]] [hw hv]].
  assert (hw' : In (xp, x0, xn) (windows x)).
  { rewrite <- (map_fst_combine x y hl), windows_map.
    apply in_map_iff. exists ((xp, yp), (x0, y0), (xn, yn)). split; auto. }
  destruct (windows_adj _ _ _ hs hw') as [A1 A2].
  destruct (refine _ _ _ _ _ _ _ _ _) eqn:E; [|easy].
  apply in_map_iff in hv. destruct hv as [s [<- hsg]].
  unfold refine in E. apply andb_prop in E. destruct E as [E _].
  apply andb_prop in E. destruct E as [_ E]. apply Bool.negb_true_iff in E.
  apply Bool.andb_false_iff in E.
  assert (hn : ~ (xn - x0 < max_x_rel * (hi - lo) /\ x0 - xp < max_x_rel * (hi - lo))).
  { intros [h1 h2]. unfold Rltb in E.
    destruct (Rlt_dec (xn - x0) (max_x_rel * (hi - lo))), (Rlt_dec (x0 - xp) (max_x_rel * (hi - lo)));
      try contradiction. destruct E; discriminate. }
  pose proof (segments_long _ hn hsg) as L. destruct s; simpl.
  - exists x0, xn. repeat split; try apply A2; auto. lra.
  - exists xp, x0. repeat split; try apply A1; auto. lra.
Qed.

Lemma mid_new x a b : adjacent x a b -> ~ In ((a + b) / 2) x.
Proof. intros (_ & _ & h & H) hi. destruct (H _ hi); lra. Qed.

(** * The values follow the abscissae *)
Lemma first_index_nth l v : In v l -> nth_error l (first_index l v) = Some v.
Proof.
  induction l as [|a l IH]; [easy|]. intros h. simpl. destruct (Req_EM_T a v) as [->|n]; auto.
  simpl. apply IH. destruct h; auto. contradiction.
Qed.

Lemma take_idx_map T (g : R -> T) l u :
  (forall v, In v u -> In v l) -> take_idx (map g l) (map (first_index l) u) = Ok (map g u).
Proof.
  induction u as [|v u IH]; intros H; auto. simpl.
  rewrite (map_nth_error g _ _ (first_index_nth l v (H v (or_introl eq_refl)))). simpl.
  rewrite IH; auto. intros w hw. apply H. now right.
Qed.

Lemma new_points x nx :
  sorted nx -> (forall v, In v nx -> ~ In v x) ->
  filter (notin x) (np_unique (x ++ nx)) = nx.
Proof.
  intros hs hn. apply sorted_ext; auto.
  - apply filter_sorted, unique_sorted.
  - intros v. rewrite filter_In, unique_in, in_app_iff, notin_spec.
    split; [intros [[h|h] h']; [contradiction|auto]|]. intros h. split; auto.
Qed.

Definition good (st : list R * list Y * list R) (x : list R) :=
  st = (x, map f x, map mon (map f x)) \/
  (multi = false /\ exists ym, st = (x, map f x, ym)).

Lemma good_mon st x : good st x ->
  (let '(_, y, ym) := st in if multi then ym else map mon y) = map mon (map f x).
Proof. intros [->|[-> [ym ->]]]; auto. now destruct multi. Qed.

Lemma good_ok x ym :
  (if multi then ym = map mon (map f x) else True) -> good (x, map f x, ym) x.
Proof. unfold good. destruct multi; [intros ->; now left|]. intros _. right. eauto. Qed.

Lemma turn_spec st x lo hi :
  good st x -> sorted x -> x <> [] -> spans x lo hi ->
  turn st = Ok None \/
  exists x' st', turn st = Ok (Some st') /\ good st' x' /\ sorted x' /\
    (exists nx, nx <> [] /\ (forall v, In v x' <-> In v x \/ In v nx) /\
      forall v, In v nx -> exists a b, adjacent x a b /\ v = (a + b) / 2 /\
         max_x_rel * (hi - lo) <= b - a).
Proof.
  intros G hs hne hsp.
  destruct st as [[x1 y1] ym]. assert (e1 : x1 = x /\ y1 = map f x).
  { destruct G as [e|[_ [z e]]]; injection e as -> ->; auto. }
  destruct e1 as [-> ->]. pose proof (good_mon G) as M. cbv beta iota in M.
  unfold Sampler_Model.turn. rewrite M.
  destruct (@get_new_mid x (map mon (map f x)) lo hi hs) as (nx & En & hsn & hmid); auto.
  { now rewrite !map_length. }
  rewrite En. cbn [bind]. destruct nx as [|n0 nx0] eqn:Enx; [now left|]. rewrite <- Enx in *.
  assert (hn : forall v, In v nx -> ~ In v x).
  { intros v hv. destruct (hmid v hv) as (a & b & A & -> & _). now apply mid_new. }
  right. rewrite new_points; auto.
  rewrite <- map_app.
  rewrite (@take_idx_map _ f (x ++ nx) (np_unique (x ++ nx))) by (intros v hv; apply unique_in; exact hv). cbn [bind].
  exists (np_unique (x ++ nx)).
  assert (T : forall v, In v (np_unique (x ++ nx)) <-> In v x \/ In v nx).
  { intros v. now rewrite unique_in, in_app_iff. }
  assert (L : exists nx', nx' <> [] /\
     (forall v, In v (np_unique (x ++ nx)) <-> In v x \/ In v nx') /\
      forall v, In v nx' -> exists a b, adjacent x a b /\ v = (a + b) / 2 /\ max_x_rel * (hi - lo) <= b - a).
  { exists nx. repeat split; auto; try apply T. now rewrite Enx. }
  destruct multi eqn:Em.
  - assert (hym : ym = map mon (map f x)) by exact M.
    rewrite hym, <- map_app, <- map_app, map_map.
    rewrite (@take_idx_map _ (fun u => mon (f u))) by (intros v hv; apply unique_in; exact hv).
    cbn [bind]. eexists. split; [reflexivity|]. split; [|split; [apply unique_sorted|exact L]].
    left. now rewrite map_map.
  - cbn [bind]. eexists. split; [reflexivity|]. split; [|split; [apply unique_sorted|exact L]].
    right. split; auto. eauto.
Qed.

(** * Invariant of the loop *)
Section Inv.
Variables (xi : list R) (lo hi : R).
Hypothesis hsi : sorted xi.
Hypothesis hspi : spans xi lo hi.
Let mdx := max_x_rel * (hi - lo).

Definition inv (x : list R) :=
  sorted x /\ spans x lo hi /\ (forall v, In v xi -> In v x) /\
  (forall a b, adjacent x a b -> adjacent xi a b \/ mdx / 2 <= b - a).

Lemma inv_init : inv xi.
Proof. split; [|split; [|split]]; auto. Qed.

Lemma spans_ne l a b : spans l a b -> l <> [].
Proof. intros [h _] e. now subst. Qed.

Lemma inv_step x x' nx :
  inv x -> sorted x' -> (forall v, In v x' <-> In v x \/ In v nx) ->
  (forall v, In v nx -> exists a b, adjacent x a b /\ v = (a + b) / 2 /\ mdx <= b - a) ->
  inv x'.
Proof.
  intros (hs & (sl & sh & sr) & hi0 & hg) hs' T M. split; auto.
  split; [|split].
  - split; [apply T; now left|]. split; [apply T; now left|].
    intros v hv. apply T in hv. destruct hv as [hv|hv]; auto.
    destruct (M v hv) as (a & b & (ha & hb & hab & _) & -> & _).
    pose proof (sr a ha). pose proof (sr b hb). lra.
  - intros v hv. apply T. left. auto.
  - intros c d (hc & hd & hcd & H).
    assert (N : forall v, In v x -> v <= c \/ d <= v) by (intros v hv; apply H, T; now left).
    apply T in hc. apply T in hd.
    destruct hc as [hc|hc]; destruct hd as [hd|hd].
    + apply hg. repeat split; auto.
    + destruct (M d hd) as (a & b & (ha & hb & hab & hA) & -> & hm). right.
      destruct (N a ha); [|lra]. destruct (hA c hc); lra.
    + destruct (M c hc) as (a & b & (ha & hb & hab & hA) & -> & hm). right.
      destruct (N b hb); [lra|]. destruct (hA d hd); lra.
    + exfalso. destruct (M c hc) as (a & b & (ha & hb & hab & hA) & -> & _).
      destruct (M d hd) as (a' & b' & (ha' & hb' & hab' & hA') & -> & _).
      destruct (N b hb); [lra|]. destruct (N a' ha'); [|lra].
      destruct (hA a' ha'); destruct (hA b' hb'); destruct (hA' a ha); destruct (hA' b hb); lra.
Qed.

(** What [loop] returns. *)
Lemma loop_inv fuel st x :
  good st x -> inv x ->
  loop fuel st = Ok None \/ exists x', loop fuel st = Ok (Some (x', map f x')) /\ inv x'.
Proof.
  revert st x. induction fuel as [|n IH]; intros st x G I; [now left|].
  cbn [Sampler_Model.loop].
  pose proof I as (hs & hsp & _ & _).
  destruct (turn_spec G hs (spans_ne hsp) hsp) as [e|(x' & st' & e & G' & hs' & nx & _ & T & M)];
    rewrite e; cbn [bind].
  - right. destruct st as [[x1 y1] ym].
    assert (e1 : x1 = x /\ y1 = map f x).
    { destruct G as [e1|[_ [z e1]]]; injection e1 as -> ->; auto. }
    destruct e1 as [-> ->]. exists x. auto.
  - apply (IH st' x'); auto. apply (inv_step _ I hs' T M).
Qed.

(** * Termination *)
Lemma last_default T (l : list T) d d' : l <> [] -> last l d = last l d'.
Proof.
  induction l as [|a l IH]; [easy|]. intros _. destruct l as [|b l]; auto. apply IH. easy.
Qed.

Lemma gaps_length l d a : sorted (a :: l) -> 0 <= d ->
  (forall u v, adjacent (a :: l) u v -> d <= v - u) -> INR (length l) * d <= last (a :: l) a - a.
Proof.
  revert a. induction l as [|b l IH]; intros a hs hd H; [simpl; lra|].
  change (length (b :: l)) with (S (length l)). rewrite S_INR.
  assert (last (a :: b :: l) a = last (b :: l) b) as ->.
  { change (last (a :: b :: l) a) with (last (b :: l) a). now apply last_default. }
  pose proof (IH b (sorted_tail hs) hd) as G.
  pose proof (H a b (adjacent_first hs)).
  assert (INR (length l) * d <= last (b :: l) b - b); [|lra].
  apply G. intros u v A. apply H. now apply adjacent_cons.
Qed.

Lemma last_in T (l : list T) d : l <> [] -> In (last l d) l.
Proof.
  induction l as [|a l IH]; [easy|]. intros _. destruct l as [|b l]; [now left|].
  right. apply IH. easy.
Qed.

Lemma length_bound x d : inv x -> 0 <= d ->
  (forall u v, adjacent x u v -> d <= v - u) -> (INR (length x) - 1) * d <= hi - lo.
Proof.
  intros (hs & (h1 & h2 & h3) & _) hd H. destruct x as [|a x]; [easy|].
  change (length (a :: x)) with (S (length x)). rewrite S_INR.
  pose proof (gaps_length hs hd H) as G.
  pose proof (h3 a (or_introl eq_refl)).
  assert (In (last (a :: x) a) (a :: x)) as L by (apply last_in; easy).
  pose proof (h3 _ L). lra.
Qed.

Lemma sorted_nodup l : sorted l -> NoDup l.
Proof.
  induction l as [|a l IH]; intros H; constructor; eauto using sorted_tail.
  intros h. pose proof (sorted_head H h). lra.
Qed.

Lemma grows x x' nx : sorted x -> sorted x' -> nx <> [] ->
  (forall v, In v x' <-> In v x \/ In v nx) -> (forall v, In v nx -> ~ In v x) ->
  (length x < length x')%nat.
Proof.
  intros hs hs' hne T N. destruct nx as [|n nx]; [easy|].
  change (S (length x) <= length x')%nat. change (S (length x)) with (length (n :: x)).
  apply NoDup_incl_length.
  - constructor; [apply N; now left|now apply sorted_nodup].
  - intros v [<-|hv]; apply T; [right; now left|now left].
Qed.

Lemma loop_ends d B : 0 < d -> d <= mdx / 2 ->
  (forall u v, adjacent xi u v -> d <= v - u) ->
  (forall n : nat, (INR n - 1) * d <= hi - lo -> (n <= B)%nat) ->
  forall fuel st x, good st x -> inv x -> (B - length x < fuel)%nat ->
  exists x', loop fuel st = Ok (Some (x', map f x')) /\ inv x'.
Proof.
  intros hd hdm hgi hB. induction fuel as [|n IH]; intros st x G I hf; [lia|].
  cbn [Sampler_Model.loop].
  pose proof I as (hs & hsp & _ & hg).
  assert (lb : (length x <= B)%nat).
  { apply hB. apply length_bound; auto; [lra|]. intros u v A. destruct (hg u v A); [auto|lra]. }
  destruct (turn_spec G hs (spans_ne hsp) hsp) as [e|(x' & st' & e & G' & hs' & nx & ne & T & M)];
    rewrite e; cbn [bind].
  - destruct st as [[x1 y1] ym].
    assert (e1 : x1 = x /\ y1 = map f x).
    { destruct G as [e1|[_ [z e1]]]; injection e1 as -> ->; auto. }
    destruct e1 as [-> ->]. exists x. auto.
  - assert (I' : inv x') by (apply (inv_step _ I hs' T M)).
    apply (IH st' x'); auto.
    assert (length x < length x')%nat.
    { apply (grows hs hs' ne T). intros v hv. destruct (M v hv) as (a & b & A & -> & _).
      now apply mid_new. }
    assert (length x' <= B)%nat.
    { pose proof I' as (_ & _ & _ & hg'). apply hB. apply length_bound; auto; [lra|].
      intros u v A. destruct (hg' u v A); [auto|lra]. }
    lia.
Qed.
End Inv.

(** A positive lower bound of the initial gaps. *)
Lemma min_gap l : sorted l -> exists d, 0 < d /\ forall u v, adjacent l u v -> d <= v - u.
Proof.
  induction l as [|a l IH]; intros hs.
  - exists 1. split; [lra|]. intros u v (h & _). easy.
  - destruct (IH (sorted_tail hs)) as (d & hd & H).
    destruct l as [|b l].
    + exists 1. split; [lra|]. intros u v (h1 & h2 & h & _).
      destruct h1 as [<-|[]]. destruct h2 as [<-|[]]. lra.
    + pose proof (sorted_head hs (or_introl eq_refl)) as hab.
      exists (Rmin d (b - a)). split; [apply Rmin_glb_lt; lra|].
      intros u v (hu & hv & huv & N).
      destruct hu as [<-|hu].
      * apply Rle_trans with (b - a); [apply Rmin_r|].
        destruct (N b) as [h|h]; [right; now left|lra|].
        destruct hv as [<-|hv]; [lra|].
        destruct hv as [<-|hv]; [lra|].
        pose proof (sorted_head (sorted_tail hs) hv). lra.
      * destruct hv as [<-|hv]; [pose proof (sorted_head hs hu); lra|].
        apply Rle_trans with d; [apply Rmin_l|]. apply H. repeat split; auto.
        intros c hc. apply N. now right.
Qed.

Lemma sampler_sound x fuel x' y' :
  sorted x -> sampler fuel x = Ok (Some (x', y')) ->
  y' = map f x' /\ exists lo hi, spans x lo hi /\ inv x lo hi x'.
Proof.
  intros hs H. unfold Sampler_Model.sampler in H.
  destruct x as [|a x]; [discriminate|].
  destruct (spans_exists (l := a :: x)) as (lo & hi & hsp & _); [easy|].
  change (loop fuel (a :: x, map f (a :: x), map mon (map f (a :: x))) = Ok (Some (x', y'))) in H.
  destruct (@loop_inv (a :: x) lo hi fuel _ (a :: x) (or_introl eq_refl) (inv_init hs hsp))
    as [e|(x1 & e & I)]; rewrite e in H; [discriminate|].
  injection H as <- <-. split; auto. exists lo, hi. auto.
Qed.

Lemma sampler_total x :
  sorted x -> x <> [] -> 0 < max_x_rel ->
  exists B, forall fuel, (B <= fuel)%nat -> exists x' y', sampler fuel x = Ok (Some (x', y')).
Proof.
  intros hs hne hm.
  destruct (spans_exists hne) as (lo & hi & hsp & _).
  destruct (min_gap hs) as (d0 & hd0 & H0).
  assert (hlh : lo <= hi) by (destruct hsp as (h1 & _ & h3); destruct (h3 _ h1); lra).
  assert (Hs : forall fuel, sampler fuel x = loop fuel (x, map f x, map mon (map f x))).
  { intros fuel. destruct x; [easy|reflexivity]. }
  destruct (Req_EM_T lo hi) as [e|ne].
  - (* a single point *)
    exists 1%nat. intros [|fuel] hf; [lia|]. rewrite Hs. cbn [Sampler_Model.loop].
    destruct (@turn_spec (x, map f x, map mon (map f x)) x lo hi (or_introl eq_refl) hs hne hsp)
      as [e1|(x' & st' & _ & _ & _ & nx & nn & _ & M)].
    + rewrite e1. cbn [bind]. eauto.
    + exfalso. destruct nx as [|v nx]; [easy|].
      destruct (M v (or_introl eq_refl)) as (a & b & (ha & hb & hab & _) & _).
      destruct hsp as (_ & _ & h3). pose proof (h3 a ha). pose proof (h3 b hb). lra.
  - assert (hl : lo < hi) by lra.
    set (d := Rmin d0 (max_x_rel * (hi - lo) / 2)).
    assert (hmd : 0 < max_x_rel * (hi - lo)) by nra.
    assert (hd : 0 < d) by (apply Rmin_glb_lt; lra).
    set (B := Z.to_nat (up ((hi - lo) / d + 1))).
    assert (hB : forall n : nat, (INR n - 1) * d <= hi - lo -> (n <= B)%nat).
    { intros n hn. assert (INR n <= (hi - lo) / d + 1).
      { apply Rmult_le_reg_r with d; auto. unfold Rdiv.
        rewrite Rmult_plus_distr_r, Rmult_assoc, Rinv_l; lra. }
      destruct (archimed ((hi - lo) / d + 1)) as [ha _].
      unfold B. apply Nat2Z.inj_le. rewrite Z2Nat.id.
      - apply le_IZR. rewrite <- INR_IZR_INZ. lra.
      - apply le_IZR. pose proof (pos_INR n). lra. }
    exists (S B). intros fuel hf. rewrite Hs.
    destruct (@loop_ends x lo hi d B hd) with (fuel := fuel) (st := (x, map f x, map mon (map f x))) (x := x)
      as (x' & e & _); auto.
    + apply Rmin_r.
    + intros u v A. apply Rle_trans with d0; [apply Rmin_l|auto].
    + now left.
    + now apply inv_init.
    + lia.
    + eauto.
Qed.
End Refine.
