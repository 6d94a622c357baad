M=[]
def m(name,file,df,old,new,claim,multi=False):
    M.append(dict(name=name,file=file+'.v',**{'def':df},old=old,new=new,claim=claim,multi=multi))
# --- parallel.py
m('bd1','Model_Parallel','blockdist','n := q + (if rank <? r then 1 else 0)','n := q + (if rank <=? r then 1 else 0)','C01 the pieces of the ranks tile the axis')
m('bd2','Model_Parallel','blockdist','s := rank * q + min rank r','s := rank * q','C01 consecutive pieces start where the previous one ended')
m('bd3','Model_Parallel','blockdist','if rank <? size then (n, s) else (0, 0)','(n, s)','C14 ranks beyond the reader count read nothing')
m('slice1','Model_Parallel','slice_flat','((o * N + s) * inner) (n * inner)','((o * N + s) * inner) n','C02 distribute then gather is the identity')
m('dd1','Model_Parallel','distribute_data','do a\' <- distribute_dimension a (S ax) c;','do a\' <- distribute_dimension a ax c;','C02 the record is distributed along the longest spatial axis')
m('am1','Model_Parallel','argmax_from','if best <? x then','if best <=? x then','C03 all ranks choose the first longest axis')
m('npy1','Model_Parallel','npy_save_writes','let gdispl := displs 0 counts in','let gdispl := map (fun _ => 0) counts in','C04 the parallel file equals np.save of the gathered array')
m('npy2','Model_Parallel','npy_save_writes','let gshape := match locs with a0 :: _ => upd_nth ax gcount (shape a0) | [] => [] end in','let gshape := match locs with a0 :: _ => shape a0 | [] => [] end in','C04 the header holds the global shape')
m('npy3','Model_Parallel','rank_writes','if 0 <? n then','if 1 <? n then','C04 every rank writes its piece')
m('npy4','Model_Parallel','npy_save_file','run_writes order ((fun _ => empty_file) before)','run_writes order before','C04 nothing of the old file survives')
m('load1','Model_Parallel','npy_load','sum (map cnt (seq 0 (S rank))) - c','sum (map cnt (seq 0 (S rank)))','C05 loading the pieces back')
m('load2','Model_Parallel','load_count','| Some c => c','| Some c => c + 1','C05 loading the pieces back')
m('sub1','Model_Parallel','subcomm_of','(rank / snd dims, rank mod snd dims)','(rank / fst dims, rank mod fst dims)','C09 the sub-communicators partition the ranks')
# --- pvar
m('st1','Model_Stat','op_stat','na * va + nb * vb + na * nb * ((ma - mb) * (ma - mb)) / n','na * va + nb * vb','C07 the parallel variance is the population variance')
m('st2','Model_Stat','local_stat','Stat n (Some m) (Some (qsum d / n))','Stat n (Some m) (Some (qsum d / (n - 1)))','C07 the parallel variance is the population variance')
m('st3','Model_Stat','op_stat','Some ((na * ma + nb * mb) / n)','Some ((ma + mb) / 2)','C07 the parallel mean is the mean')
# --- reader1
m('r1a','Model_Reader1','get_loop','window (js - cum) (je - js) (rows d\')','window (js - tmp_nt) (je - js) (rows d\')','C12 which rows are returned when several arrays are given')
m('r1b','Model_Reader1','get_loop','repeat (repeat zero (rowlen d\')) (te - ts)','repeat (repeat zero (rowlen d\')) te','C10 get_data returns exactly the rows requested')
m('r1c','Model_Reader1','check_shapes','then check_shapes (Some (tl (shape d))) ds\' (nt + nrows d)\n                   else Err AssertionError','then check_shapes (Some (tl (shape d))) ds\' (nt + nrows d)\n                   else check_shapes (Some (tl (shape d))) ds\' (nt + nrows d)','C10 arrays of different spatial shape are rejected')
m('r1d','Model_Reader1','get_data','get_data_for_time r t (t + 1)','get_data_for_time r t (t + 2)','C11 streaming one snapshot at a time')
# --- reader2
m('r2a','Model_Reader2','message','window (s * nv) (n * nv)','window s (n * nv)','C14 the redistribution gives every rank its slice')
m('r2b','Model_Reader2','offset','(seq 0 irank)','(seq 0 (S irank))','C14 rows land at the offset of their reader')
m('r2c','Model_Reader2','sel','(S (last_index_of hi labels) - index_of lo labels)','(last_index_of hi labels - index_of lo labels)','C16 label selection includes the last row')
m('r2d','Model_Reader2','interleave','map (fun v => nth x v zero) vals) (seq 0 nxyz)','map (fun v => nth x v zero) (rev vals)) (seq 0 nxyz)','C14 variables in the order requested')
m('r2e','Model_Reader2','read_loop','let read_je := min (cum_t + (v1 - v0)) je in','let read_je := min (cum_t + (v1 - v0)) (je - 1) in','C14 all the rows of a rank are read')
m('r2f','Model_Reader2','read_loop','(read_js - cum_t) (read_je - read_js)','read_js (read_je - read_js)','C14 rows relative to the file')
m('r2g','Model_Reader2','chunk_store','Block (t_s + bs) (t_s + (bs + bn))','Block bs (bs + bn)','C15 the chunk store covers the record')
m('r2h','Model_Reader2','chunk_store','(chunk * nblks + blk,','(chunk + blk,','C15 every block has its own key')
m('r2i','Model_Reader2','nreaders_of','| Some 0 => size | Some n => min n size','| Some 0 => size | Some n => n','C14 more readers than ranks')
m('r2j','Model_Reader2','mat_loop','max cum_t js <? min (cum_t + 1) je','max cum_t js <=? min (cum_t + 1) je','C19 the MATLAB reader reads its range')
m('r2k','Model_Reader2','get_data_for_time_mat','(ts + s) (ts + s + n))\n    (te - ts) dst order.\nEnd Mat.','s (s + n))\n    (te - ts) dst order.\nEnd Mat.','C19 the MATLAB reader reads its range')
m('r2l','Model_ReaderMat','auto_nchunks_mat','N.min nchunks ((nt + size - 1) / size)','nchunks','C107 chunks are never empty')
# --- base.py
m('b1','Model_Base','n_overlap_of','Qceiling (inject_Z n_dft * overlap / 100)','Qfloor (inject_Z n_dft * overlap / 100)','C20 overlap rounds up')
m('b2','Model_Base','check_overlap','(n_dft - 1 <? o)%Z','(n_dft <? o)%Z','C20 blocks advance by at least one')
m('b3','Model_Base','n_blocks_of','((nt - n_overlap) / (n_dft - n_overlap))%Z','(nt / (n_dft - n_overlap))%Z','C21 the block count is the largest that fits')
m('b4','Model_Base','block_offset','(Z.min (i * (n_dft - n_overlap) + n_dft) nt - n_dft)%Z','(Z.min (i * n_dft + n_dft) nt - n_dft)%Z','C21 consecutive blocks overlap by n_overlap')
m('b5','Model_Base','long_t_sum','if 0 <? split_res\n','if 1 <? split_res\n','C22 the long-time mean is the mean over all snapshots')
m('b6','Model_Base','long_t_mean_dict','divn (long_t_sum_dict st) nt','divn (long_t_sum_dict st) (length st)','C22 the mean from the chunk store')
m('b7','Model_Base','get_freq_axis','else if n_dft mod 2 =? 0 then shift_from (n_dft / 2 + 1)','else if n_dft mod 2 =? 0 then shift_from (n_dft / 2)','C25 the frequency axis')
m('b8','Model_Base','get_freq_axis','(seq 0 (n_dft / 2 + 1))','(seq 0 (n_dft / 2))','C24 the frequency axis of real data')
m('b9','Model_Base','define_weights','if length (flat w) =? nx * nv then Ok w else Err ValueError','Ok w','C26 weights of the wrong size are rejected')
m('b10','Model_Base','modes_step','let a := if nb <? ms_attr s then nb else ms_attr s in','let a := nb in','C28 number of saved modes')
m('b11','Model_Base','pad8','(8 - String.length d)','(7 - String.length d)','C65 file names sort by frequency')
m('b12','Model_Base','mode_file','"freq_idx_f" ++ pad8 f ++ "_m" ++ pad8 m','"freq_idx_f" ++ pad8 m ++ "_m" ++ pad8 m','C65 file names are distinct')
m('b13','Model_Base','save_modes','if o_disk2 o then (if o_flat o then','if o_disk2 o then (if o_comm o then','C30 which files a fit writes')
m('w1','Model_Weights','upd_last_axis','if fst p mod L =? i then f (snd p) else snd p','if fst p / L =? i then f (snd p) else snd p','C67 every variable is divided by its own variance')
m('w2','Model_Weights','last_axis','nth (k * L + i) l d','nth (i * L + k) l d','C67 every variable is divided by its own variance')
# --- standard.py data movement
m('s1','Model_Standard','drop_old','negb (b_e (snd kb) <? start)','negb (start <? b_e (snd kb))','C31 dropping old chunks loses nothing needed later')
m('s2','Model_Standard','block_loop','(bstart + c) (out ++','bstart (out ++','C31 every block is read from the store')
m('s3','Model_Standard','n_passes','(total_files + size - 1) / size','total_files / size','C33 every mode file is written')
m('s4','Model_Standard','unpad_step','put data (sum (firstn irank counts))','put data (irank * phi0_max)','C33 every mode file holds the gathered mode')
m('s5','Model_Standard','are_blocks_present','if all_freq_exist =? n_freq then acc + 1 else acc','acc + 1','C40 blocks are reused only when all files exist')
m('s6','Model_Standard','save_shape','if n mod others =? 0 then Ok (upd_nth ax (n / others) xshape)','if n mod others =? 0 then Ok (upd_nth ax n xshape)','C39 reloaded blocks equal the saved ones')

m('b14','Model_Base','freq_file','"freq_idx_" ++ pad8 f ++ ".npy"','"freq_idx_" ++ py_str (Z.of_nat f) ++ ".npy"','C65 file names sort by frequency')
m('b15','Model_Base','result_folder','"_novlp" ++ py_str n_overlap','"_novlp" ++ py_str n_dft','C29 folders of different parameters differ')
m('s7','Model_Standard','save_one','Create k :: map (Write k) (mid (fst bf) (snd bf)) ++ [Write k (qhat (fst bf) (snd bf))]','Create k :: map (Write k) (mid (fst bf) (snd bf))','C39 the saved blocks are complete')
m('s8','Model_Standard','reload_block','then do p <- distribute_dimension file ax c; Ok (flat p)','then do p <- distribute_dimension file 0 c; Ok (flat p)','C39 reload along the same axis')
m('s9','Model_Standard','squeeze','filter (fun d => negb (d =? 1)) sh','sh','C42 a single local entry fails')
m('s10','Model_Standard','padded','phi r f m ++ repeat zero (phi0_max - length (phi r f m))','phi r f m','C33 padding')
# --- numerics
m('n1','Model_Spod','adj','\\matrix_(i, j) (A j i)^*.','\\matrix_(i, j) (A j i).','C34 the spectral matrix is Hermitian positive semidefinite')
m('n2','Model_Spod','gram','(nb%:R)^-1 *: (adj Q *m wmul w Q)','(adj Q *m wmul w Q)','C35 modes have unit norm')
m('n3','Model_Spod','order','argsort L (rev_ord k)','argsort L k','C37 eigenvalues in decreasing order')
m('n4','Model_Spod','sort_V','\\matrix_(i, k) V i (order argsort L k)','\\matrix_(i, k) V i (let _ := order argsort L k in k)','C37 modes follow their eigenvalues')
m('n5','Model_Spod','all_modes','(V i k * (sqrtC nb%:R * sqrtC (L 0 k))^-1)','(V i k * (sqrtC (L 0 k))^-1)','C35 modes have unit norm')
m('n6','Model_Spod','one_sided','(0 < f)%N && (f < (n_freq c).-1)%N','(f < (n_freq c).-1)%N','C38 the zero frequency is not doubled')
m('n7','Model_Spod','eigs_c_u','(2 * (n_blocks c)%:R / xi2_lower c)','(2 * (n_blocks c)%:R / xi2_upper c)','C41 the confidence bounds')
m('n8','Model_Spod','win_weight','((\\sum_(k < n_dft c) window c k) / (n_dft c)%:R)^-1','1','C38 the energy of the one-sided spectrum')
m('n9','Model_Spod','block_centred','Blockwise => let mu := (\\sum_(j < n_dft c) q j) / (n_dft c)%:R in fun k => q k - mu','Blockwise => q','C113 a steady field is irrelevant')
m('n10','Model_Spod','reduced_M','\\sum_(r < size) gram (q_hat c (@local_X r) f) (local_w r)','\\sum_(r < size) gram (q_hat c (@local_X r) f) (const_mx 1)','C83 the modes solve the weighted eigenproblem')
m('n11','Model_Spod','dft','q k * w ^+ (f * k)','q k * w ^+ k','C38 the transform')
m('n12','Model_SpodPar','mode_piece','(upd_nth ax (blockdist (List.nth ax sh 0%N) size r).1 sh ++ (cons k nil))','(upd_nth ax (blockdist (List.nth ax sh 0%N) size r).1 sh)','C32 the mode file')
# --- streaming
m('t1','Model_Streaming','init_slots','- (Z.of_nat j * Z.of_nat dn)','- (Z.of_nat j * Z.of_nat n_dft)','C43 the schedule')
m('t2','Model_Streaming','pass','(t =? Z.of_nat n_dft - 1)%Z\n    then','(t =? Z.of_nat n_dft)%Z\n    then','C43 the schedule')
m('t3','Model_Streaming','pass','(zmin (map fst (done ++ (t, a1) :: rest)) - Z.of_nat dn)%Z, zeroA','(zmin (map fst (done ++ (t, a1) :: rest)) - Z.of_nat dn)%Z, a1','C45 a new block starts from zero')
m('t4','Model_Streaming','pass','(-1 <? t)%Z','(0 <? t)%Z','C45 the first snapshot of a block counts')
m('t5','Model_Streaming','n_blocks_par','(n_dft + dn - 1) / dn','n_dft / dn','C43 the schedule')
m('t6','Model_StreamNum','mean_step','(ti%:R *: m r + x r)','(m r + x r)','C45 the running mean')
m('t7','Model_StreamNum','K_mx','sqrtC (b.+1%:R / (b.+2%:R ^+ 2)) *:','sqrtC (b.+1%:R / b.+2%:R) *:','C46 the rank-one update')
m('t8','Model_StreamNum','u_p','x r - U r *m Ux','x r','C47 modes stay orthonormal')
m('t9','Model_StreamNum','Ux','\\sum_(r < size) adj (U r) *m x r.','\\sum_(r < size | val r == 0%N) adj (U r) *m x r.','C48 rank independence')
m('t10','Model_StreamNum','stream_modes','(us.1 i j / sqrt_w i)','(us.1 i j * sqrt_w i)','C47 orthonormal in the weighted inner product')
m('t11','Model_StreamNum','x_centred','(window c row * dft_entry row f) *: m r','(dft_entry row f) *: m r','C45 the mean is removed with the window')
m('t12','Model_StreamNum','stream_eigs','then Some us.2 else None','then Some (\\row_j (us.2 0 j ^+ 2)) else None','C85 what is saved as eigenvalues')
m('t13','Model_StreamNum','u_new','(u_p r i 0 / abs_up)','(u_p r i 0)','C47 modes stay orthonormal')
m('t14','Model_StreamNum','dft_entry','if isrealx c && (0 < f)%N && (f < n_freq c - 1)%N then 2 else 1','1','C45 interior frequencies are doubled')
m('t15','Model_StreamShape','update_shapes','let U := squeeze [flat; k] in','let U := [flat; k] in','C49 one saved mode fails')
# --- selection
m('e1','Model_Select','argmin_from','if Qle_bool bv x then argmin_from (S i) best bv r else','if negb (Qle_bool x bv) then argmin_from (S i) best bv r else','C63 ties go to the first')
m('e2','Model_Select','select_freqs','do ru <- inv_period T_ub; do l <- find_nearest_freq ru freq;','do ru <- inv_period T_lb; do l <- find_nearest_freq ru freq;','C56 the lower frequency comes from the longest period')
m('e3','Model_Select','select_freqs','seq il (iu + 1 - il)','seq il (iu - il)','C56 both ends included')
m('e4','Model_Select','put','set_col (n_modes * cnt + i)','set_col (cnt + i)','C55 gathering order')
m('e5','Model_Select','arange','(seq 0 ((nt + d - 1) / d))','(seq 0 (nt / d + 1))','C57 time selection in range')
m('e6','Model_Select','clt','negb (Qle_bool (fst b) (fst a)) || (Qeq_bool (fst a) (fst b) && negb (Qle_bool (snd b) (snd a)))','negb (Qle_bool (fst b) (fst a)) && negb (Qle_bool (snd b) (snd a))','C58 imaginary part')
m('e7','Model_Select','corr_range','(thres - Z.of_nat i - 1, Z.of_nat n_dft)','(thres - Z.of_nat i, Z.of_nat n_dft)','C54 the off-by-one')
m('e8','Model_Select','conv_phir','(seq 0 nm)) (seq 0 xs)) (seq 0 nf)','(seq 0 nm)) (seq 0 nf)) (seq 0 xs)','C53 the layout')
m('e9','Model_Select','resolve_time','else if String.eqb (lower s) "half" then Ok (Ints (arange nt 2))','else if String.eqb (lower s) "half" then Ok (Ints (arange nt 3))','C57 every second snapshot')
# --- coefficients
m('f1','Model_Coeffs','m_inv','adj v *m diag_mx (l_inv l) *m adj u','v *m diag_mx (l_inv l) *m adj u','C50 least squares')
m('f2','Model_Coeffs','Q_red','adj (phir r) *m wmul (dcent r)^T','adj (phir r) *m (dcent r)^T','C50 weighted least squares')
m('f3','Model_Coeffs','rec_op','((phir r *m coeffs) i t + lt_mean r 0 i)','((phir r *m coeffs) i t)','C50 the mean is added back')
m('f4','Model_Coeffs','conv_local','(phi f (own i) m)^*','(phi f (own i) m)','C52 the serial value')
m('f5','Model_Coeffs','l_inv','if tol * l_max l < l 0 i then','if tol < l 0 i then','C87 the tolerance is relative')
m('f6','Model_Coeffs','pad','(q - h_pad)%N','q','C52 the window is centred')
m('f7','Model_ConvShape','conv_shapes','transpose (squeeze phir)','transpose phir','C88 one mode fails')
# --- POD
m('p1','Model_Pod','buf',"'Re (data t' (own i))","data t' (own i)",'C91 the imaginary part is lost')
m('p2','Model_Pod','long_t_mean','\\sum_(nt - rs <= t < nt) buf t i else 0','0 else 0','C90 the mean of an odd number of snapshots')
m('p3','Model_Pod','pod_Q','wmul (\\col_i w (own i) 0) (d_mat r)','wmul (\\col_i (w (own i) 0) ^+ 0) (d_mat r)','C92 orthonormal in the weighted inner product')
m('p4','Model_Pod','pod_phi',"'Re ((d_mat r *m pod_v) i j) / sqrtC (pod_w 0 j)","'Re ((d_mat r *m pod_v) i j)",'C92 unit norm')
m('p5','Model_Pod','pod_coeffs','(data t (own (r := r) i) - lt_mean_pod i)','(data t (own (r := r) i))','C60 exact reconstruction')
m('p6','Model_PodShape','pod_check','(tl s) xshape','(tl (tl s)) xshape','C61 accepted shapes')
m('p7','Model_PodShape','pod_save_shape','npoints * Nat.min k nt =? size_of (xshape ++ [nv; k])','true','C61 accepted shapes')
