M=[]
def m(name,file,df,old,new,claim,multi=False):
    M.append(dict(name=name,file=file+'.v',**{'def':df},old=old,new=new,claim=claim,multi=multi))
# --- re-runs of earlier survivors
m('r2l','Model_ReaderMat','auto_nchunks_mat','N.min nchunks ((nt + size - 1) / size)','nchunks','C107 chunks are never empty')
m('io6','Model_IO','read_data','| _ => splitext data_file end','| Some EmptyString => EmptyString | None => splitext data_file end','C70 an empty format is taken from the name')
m('pa3','Model_Params','step','Ok f => (set_obj (set_dict w d f) d i (Some o\'), Saved f)','Ok f => (set_obj w d i (Some o\'), Saved f)','C120 what later fits of the dictionary see')
# --- MPI
m('mp1','Model_Mpi','reader_prog','map (fun d => Send d (msg c r d)) (seq 0 size).','map (fun d => Send d (msg c r d)) (filter (fun d => negb (d =? r)) (seq 0 size)).','C125 the readers do not deadlock')
m('mp2','Model_Mpi','reader_prog','map (fun d => Send d (msg c r d)) (seq 0 size).','map (fun d => Send d (msg c d r)) (seq 0 size).','C126 every process gets its own slices')
m('mp3','Model_Mpi','modes_prog','(Nat.min ((ipass + 1) * size) total - ipass * size)','(Nat.min ((ipass + 1) * size) total - ipass * size - 1)','C126 every mode is assembled')
m('mp4','Model_Mpi','modes_prog','Send (i mod size) (col r i) ::','Send ((i + 1) mod size) (col r i) ::','C125 the writers do not deadlock')
m('mp5','Model_Mpi','chunk_data','offset nreaders m q * (n * nv)','offset nreaders m q * n','C126 slices are put at the place of their reader')
m('mp6','Model_Mpi','mode_data','(fun q => phi0_max size phi * q) arrivals','(fun q => phi0_max size phi * (q + 1)) arrivals','C126 columns are put at the place of their sender')
m('mp7','Model_Mpi','step','nth_error (sends_to d (posted st s)) k = Some x -> k < recvs_from s (posted st d) ->','nth_error (sends_to d (posted st s)) k = Some x -> k < S (recvs_from s (posted st d)) ->','C126 messages are not mixed between rounds')
# --- views
m('vi1','Model_Views','get_freq','| Some _ => get_data_from_file d (freq_file f)','| Some c => Ok (Owned [c])','C128 a returned array of a per-frequency file is the file')
m('vi2','Model_Views','get_all','then Ok (Owned l) else','then Ok (Mapped (freq_file 0)) else','C128 the stacked modes are a copy')
m('vi3','Model_Views','edit','(upd_nth i v c)) (heap s)\n','(upd_nth j v c)) (heap s)\n','C128 the edited entry changes')
m('vi4','Model_Views','edit','if i <? length c then','if i <=? length c then','C128 edits out of range change nothing')
m('vi5','Model_Views','get_data_from_file','if writable name then Ok (Mapped name) else Err OSError','Ok (Mapped name)','C128 files must be writable to be read')
m('vi6','Model_Views','set_file','if String.eqb (fst e) name then (fst e, c) else e','(fst e, c)','C128 other files stay')
# --- training
m('tr1','Model_Train','improves','negb (Qle_bool b x)','negb (Qle_bool x b)','C129 the stored weights are the best ones')
m('tr2','Model_Train','fit','else fit n net\' d best file','else fit n net\' d best (Some (weights net\'))','C129 the stored weights are the best ones')
m('tr3','Model_Train','fit','fit n net\' d (Some x) (Some (weights net\'))','fit n net\' d best (Some (weights net\'))','C129 the stored weights are the best ones')
m('tr4','Model_Train','weight_file','append (append part (py_str idx)) ".weights.h5"','append part ".weights.h5"','C129 files of different indices do not collide')
m('tr5','Model_Train','model_train','Some d => train_part s1 o "imag" idx d end','Some d => train_part s1 o "real" idx d end','C129 real and imaginary parts have their own weights')
m('tr6','Model_Train','model_inference','if complex then do i <- load (fst r) o "imag" idx;','if complex then do i <- load (fst r) o "real" idx;','C129 inference uses the weights trained')
m('tr7','Model_Train','load','Ok (St (put (nets s) o (load_weights net w)) (folder s), w)','Ok (s, w)','C129 what later training starts from')
m('tr8','Model_Train','train_part','fit epochs net d None (folder s name)','fit epochs net d None None','C129 an epoch without improvement keeps the file')
# --- object
m('ob1','Model_Object','blocks','(Z.of_nat (a_nt a)) (Z.of_nat (p_n_dft p))','(Z.of_nat (a_nt a + 1)) (Z.of_nat (p_n_dft p))','C130 number of blocks of the last fit')
m('ob2','Model_Object','exec','| Err _ => (o, false) end','| Err _ => (fresh, false) end','C130 attributes after a failed fit')
m('ob3','Model_Object','groups','(Some (zeros (length (freq_of p a)) (Z.to_nat (blocks p a)))) nm);','eg nm);','C130 eigenvalues of zeros after an interrupted fit')
m('ob4','Model_Object','feasible','(blocks p a <? 2)%Z','(blocks p a <? 3)%Z','C130 feasible fits return')
m('ob5','Model_Object','groups','fr (Some (folder_of p a)) eg nm);','fr sd eg nm);','C130 folder of the last fit')
m('ob6','Model_Object','get_modes_at_freq','if p_disk p || p_disk2 p','if p_disk p','C130 modes on disk can be read')
m('ob7','Model_Object','folder_of','append (p_savedir p) (append "/" (result_folder','append (p_savedir p) (append "" (result_folder','C130 folder of the last fit')
# --- plots of eigenvalues
m('pe1','Model_PlotEigs','ceil_abs','Z.sqrt_up (Qceiling','Z.sqrt (Qceiling','C131 every point lies within the limits')
m('pe2','Model_PlotEigs','limit','fold_left Z.max (map ceil_abs l) (ceil_abs z)','ceil_abs z','C131 every point lies within the limits')
m('pe3','Model_PlotEigs','grey_level','(qn k / qn n)%Q in','(qn (S k) / qn n)%Q in','C131 the leading curve is black')
m('pe4','Model_PlotEigs','curves','(seq 0 n))%Q','(seq 1 n))%Q','C131 one curve per mode')
m('pe5','Model_PlotEigs','plot_eigs_vs_period','if Qeq_bool f 0 then None else Some (1 / f)%Q','Some f','C131 the abscissa is the period')
m('pe6','Model_PlotEigs','axes_limits','qmax_l x l * (105 # 100)','qmax_l x l','C131 limits of the axes')
m('pe7','Model_PlotEigs','qmin_l','if Qle_bool a b then a else b','if Qle_bool a b then b else a','C131 limits of the axes')
# --- precision
m('dt1','Model_Dtype','set_dtype','match d with F64 => flt p | C128 => cpx p | _ => d end','match d with F64 | F32 => flt p | C128 | C64 => cpx p | _ => d end','C133 float32 data stay single')
m('dt2','Model_Dtype','class_prec','if eq_double a then Double else Single','if eq_double a || eq_np64 a then Double else Single','C133 the classes take np.float64 for single')
m('dt3','Model_Dtype','step','ret (do p <- utils_prec (Str "double"); coeffs_op','ret (do p <- utils_prec (Str "single"); coeffs_op','C133 the methods compute in double')
m('dt4','Model_Dtype','with_f64_scalar','if nep50 then promote a F64','if nep50 then a','C133 numpy 2 promotes single modes')
m('dt5','Model_Dtype','coeffs_conv','(Some F64) (Some (cpx p)) (c_rec fo)','(Some (flt p)) (Some (cpx p)) (c_rec fo)','C133 the mean of a convolution is double')
m('dt6','Model_Dtype','mean_of','match a with Int => F64 | _ => a end.','match a with Int => F64 | _ => F64 end.','C133 float32 data are averaged in float32')
m('dt7','Model_Dtype','fit','let q := cpx p in','let q := C128 in','C133 single precision gives single arrays')
# --- coefficients
m('cf1','Model_Coeffs','dcent','(dloc r t i - lt_mean r 0 i)','(dloc r t i)','C50 least squares of the fluctuation')
m('cf2','Model_Coeffs','M_red','\\sum_(r < size) adj (phir r) *m wmul (phir r).','\\sum_(r < size) adj (phir r) *m phir r.','C50 least squares in the weighted norm')
m('cf3','Model_Coeffs','M_red','\\sum_(r < size) adj (phir r) *m wmul (phir r).','\\sum_(r < size | val r == 0%N) adj (phir r) *m wmul (phir r).','C51 rank independence')
m('cf4','Model_Coeffs','rec_op','((phir r *m coeffs) i t + lt_mean r 0 i)','((phir r *m coeffs) i t)','C50 reconstruction')
m('cf5','Model_Coeffs','l_inv','(if tol * l_max l < l 0 i then','(if tol * l_max l <= l 0 i then','C87 zero singular values are dropped')
m('cf6','Model_Coeffs','l_max','\\big[Num.max/0]_(i < p) l 0 i','\\big[Num.min/0]_(i < p) l 0 i','C87 threshold relative to the largest')
m('cf7','Model_Coeffs','corr','(\\sum_(k < n_dft) win k) / \\sum_(k < n_dft | in_sum nt n_dft i0 k) win k','(\\sum_(k < n_dft | in_sum nt n_dft i0 k) win k) / \\sum_(k < n_dft) win k','C54 correction at the ends')
m('cf8','Model_Coeffs','conv_local','(phi f (own i) m)^*','(phi f (own i) m)','C127 convolution coefficients are projections')
m('cf9','Model_Coeffs','q_blk','omega ^+ (f * k)','omega ^+ k','C127 convolution coefficients are projections')
m('cf10','Model_Coeffs','ortho_value','*m wmul (col k (phir r))) 0 0','*m col k (phir r)) 0 0','C58 value of the orthogonality check')
m('cf11','Model_Coeffs','pad','if insub (q - h_pad)%N is Some t then if (h_pad <= q)%N then','if insub (q - h_pad).+1 is Some t then if (h_pad <= q)%N then','C127 convolution is centred')
