(** Average pooling that leaves the padding out, in floating-point arithmetic: pooling as in RoundModel.v, then the product and the
    quotient of pooling/uniform.py:51 rounded with a relative error of at most e; the counts are small integers and exact. *)
From Verif Require Export RoundEdgeModel.
Open Scope Z_scope.

Section RAM.
Context {F : ofield}.
Notation T := (tensor F).
(** uniform.py:24-51 [AvgPoolNd.forward] with count_include_pad=False: y is a result the call may give. Everything but the pooled
    image, the product and the quotient is as in [avg_forward]; the state of the pool depends on shapes only. *)
Definition fl_avg_forward (e : F) (fuel : nat) (junk : list Z -> F) (m : pool F) (x : T) (axes : axes_arg) (y : T) : Prop :=
  exists al sizes y0 z0 z y1, check_axes (Z.of_nat (ndim x)) axes = Ok al /\
    mapM (nds_get (pl_size m)) (zrange (Z.of_nat (length al))) = Ok sizes /\ distinctb al = true /\
    fl_forward e fuel junk m x (AxSeq al) y0 /\
    let m' := fst (sep_forward fuel junk m x (AxSeq al)) in
    let idx := argsort al in
    (in_size <- mapM (fun i => a <- pyidx al (Z.of_nat i) ;; pyidx (shp x) a) idx ;;
     pad_width <- mapM (fun i => match pl_padder m' with None => Err AttributeError | Some p => nds_get (p_width p) (Z.of_nat i) end) idx ;;
     kernel_size <- mapM (fun i => nds_get (pl_size m') (Z.of_nat i)) idx ;;
     stride <- mapM (fun i => nds_get (pl_stride m') (Z.of_nat i)) idx ;;
     n_original_elements_nd in_size pad_width kernel_size stride) = Ok z0 /\
    (new_shape <- z_shape (ndim y0) al (shp z0) idx ;; treshape z0 new_shape) = Ok z /\
    rounded e (tmap (fun v => fmul v (fofZ (zprod sizes))) y0) y1 /\ fl_map2 e fdiv y1 z y.
End RAM.
