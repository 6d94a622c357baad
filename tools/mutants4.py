M=[]
def m(name,file,df,old,new,claim,multi=False):
    M.append(dict(name=name,file=file+'.v',**{'def':df},old=old,new=new,claim=claim,multi=multi))
m('sm1','Model_Spmd','initialize','++ reps 3 [Coll Allreduce] ++ [Coll Barrier].','++ [].','C139 folders exist when files are written')
m('sm2','Model_Spmd','spod_coeffs','(does (rank0 r [Makedirs (c_dir c)] ++ [Coll Barrier]\n        ++','(does (rank0 r [Makedirs (c_dir c)]\n        ++','C139 no process fails')
m('sm3','Model_Spmd','reconstruct','++ distribute ++ distribute ++ rank0 r [Makedirs (r_out c)] ++ [Coll Barrier]','++ distribute ++ distribute ++ rank0 r [Makedirs (r_out c)]','C139 no process fails')
m('sm4','Model_Spmd','pod_fit','++ rank0 r [Makedirs d] ++ [Coll Barrier] ++ allreduce ++ npy_save d PodModes','++ rank0 r ([Makedirs d; Coll Barrier]) ++ allreduce ++ npy_save d PodModes','C139 all processes make the same calls')
m('sm5','Model_Spmd','store_and_save','++ rank0 r (write (f_dir c) ParamsModes ++ write (f_dir c) EigsFreq) ++ [Coll Barrier].','++ rank0 r (write (f_dir c) ParamsModes ++ write (f_dir c) EigsFreq ++ [Coll Barrier]).','C139 all processes make the same calls')
m('sm6','Model_Spmd','store_and_save','++ rank0 r (write (f_dir c) ParamsModes ++ write (f_dir c) EigsFreq) ++ [Coll Barrier].','++ rank0 r (write (f_dir c) ParamsModes) ++ [Coll Barrier].','C139 results of a fit are there for the coefficients')
m('sm7','Model_Spmd','mode_rounds','if i mod size =? r then write','if (S i) mod size =? r then write','C139 each mode file by the process that received it')
m('sm8','Model_Spmd','waits_for','| Barrier | Allreduce | Allgather | Exchange => true','| Barrier | Allreduce | Allgather | Exchange => r =? 0','C139 barrier waits for all')
m('sm9','Model_Spmd','spod_coeffs','++ rank0 r (write (c_dir c) CoeffsNpy) ++ [Coll Barrier]\n        ++ write (c_dir c) ParamsCoeffs ++ [Coll Barrier]) k)).','++ write (c_dir c) ParamsCoeffs ++ [Coll Barrier] ++ rank0 r (write (c_dir c) CoeffsNpy)) k)).','C139 coefficients are there for the reconstruction')
m('sm10','Model_Spmd','pod_coeffs','++ allreduce ++ rank0 r [Makedirs dir] ++ [Coll Barrier]','++ allreduce ++ (if r =? 1 then [Makedirs dir] else []) ++ [Coll Barrier]','C139 works with any number of processes')
m('sm11','Model_Spmd','spod_fit','(fun n => go (n =? f_nb c)) else go false)','(fun n => go (r =? n)) else go false)','C139 all processes decide alike')
m('sm12','Model_Spmd','npy_save','Coll (FOpen d f); Coll FSetSize;','Coll FSetSize;','C139 files of a parallel save exist')
m('sf1','Model_SharedFile','truncated','Definition truncated : file := F 0 (fun _ => z).','Definition truncated : file := F 1 (fun _ => z).','C141 the file is the text')
m('sf2','Model_SharedFile','write_at','(Nat.max (len f) (p + length w))','(p + length w)','C141 the file is the text')
m('sf3','Model_SharedFile','step','(set (pos s) r (p + k)))','(set (pos s) r (S (p + k))))','C141 the file is the text')
m('mb1','Model_Base','check_construct','if o_disk2 o && negb (o_comm o) then','if o_disk2 o && o_comm o then','C30 accepted options')
m('mb2','Model_Base','check_construct','else if o_disk o && o_disk2 o then Err AssertionError            (* 122-123 *)','else if o_disk o && negb (o_disk2 o) then Err AssertionError','C30 accepted options')
m('mb3','Model_Base','check_initialize','else if o_flat o && o_disk o then Err AssertionError             (* base.py:404-405 *)','else if false then Err AssertionError','C30 accepted options')
m('mb4','Model_Base','check_feasible','(n_dft <? 4)%Z || (nb <? 2)%Z','(n_dft <? 4)%Z || (nb <? 3)%Z','C130 two blocks are enough')
m('mb5','Model_Base','check_feasible','(n_dft <? 4)%Z || (nb <? 2)%Z','(n_dft <? 4)%Z','C21 at least two blocks')
m('mb6','Model_Base','get_block_array','window start (end_ - start) data','window (S start) (end_ - start) data','C121 blocks of the record')
m('mb7','Model_Base','sum_rows','fold_left add d zero','fold_left add (tl d) zero','C22 long-time mean')
m('mb8','Model_Base','long_t_sum_dict','fold_left (fun t kb => add t (sum_rows (b_v (snd kb)))) st zero','fold_left (fun t kb => add zero (sum_rows (b_v (snd kb)))) st zero','C22 long-time mean of a chunked record')
m('mb9','Model_Base','long_t_mean','divn (long_t_sum nt n_blocks data) nt.','divn (long_t_sum nt n_blocks data) n_blocks.','C22 long-time mean')
m('mb10','Model_Base','freq_full','(qn k / dt) / qn n_dft','(qn (S k) / dt) / qn n_dft','C25 frequency axis')
m('mb11','Model_Base','shift_from','(fun x => x - 1 / dt)%Q (skipn j f)','(fun x => x - dt)%Q (skipn j f)','C25 negative frequencies')
m('mb12','Model_Base','flatten_weights','Nd [length (flat w) / nv; nv] (flat w)','Nd [nv; length (flat w) / nv] (flat w)','C122 weights of file-based fits')
m('mb13','Model_Base','local_weights','if length (flat w\') =? xvsize then','if length (flat w\') <=? xvsize then','C26 weights must match the data')
m('mb14','Model_Base','modes_run','fold_left modes_step h (ModesState requested requested)','fold_left modes_step h (ModesState 1 requested)','C28 number of saved modes')
m('mb15','Model_Base','block_file','"fft_block" ++ pad8 i_blk ++ "_freq" ++ pad8 i_freq','"fft_block" ++ pad8 i_blk ++ pad8 i_blk','C39 block files never collide')
m('pa1','Model_Parallel','slice_axis','let inner := prod (skipn (S ax) (shape a)) in\n  Nd','let inner := prod (skipn ax (shape a)) in\n  Nd','C02 slices')
m('pa2','Model_Parallel','slice_axis','Nd (upd_nth ax n (shape a)) (slice_flat','Nd (upd_nth ax s (shape a)) (slice_flat','C02 shape of slices')
m('pb3','Model_Parallel','distribute_dimension','if ax <? length (shape a) then','if S ax <? length (shape a) then','C02 last axis may be distributed')
m('pa4','Model_Parallel','argmax_from','if best <? x then','if best <=? x then','C03 first longest axis')
m('pa5','Model_Parallel','distribute_data','do a\' <- distribute_dimension a (S ax) c;','do a\' <- distribute_dimension a ax c;','C02 never along time')
m('pa6','Model_Parallel','subarray_pos','seq ((o * G + displ) * inner) (n * inner)','seq ((o * n + displ) * inner) (n * inner)','C04 parallel file')
m('pa7','Model_Parallel','bytes_at','seq (off + p * es) es','seq (off + p) es','C04 parallel file')
m('pa8','Model_Parallel','read_elem','read_bytes f (off + p * es) es','read_bytes f (p * es) es','C05 round trip')
m('pa9','Model_Parallel','subcomm_den','if size mod 3 =? 0 then 3 else if size mod 4 =? 0 then 4 else','if size mod 3 =? 0 then 4 else if size mod 4 =? 0 then 4 else','C09 grids complete')
m('pa10','Model_Parallel','subcomm_dims','(a, b * den)','(a * den, b * den)','C09 grids complete')
m('pa11','Model_Parallel','allreduce_sum','map (fun p => add (fst p) (snd p)) (combine l acc)','map (fun p => add (fst p) (fst p)) (combine l acc)','C07 sum of all ranks')
m('ra1','Model_Reader1','reader1_init','if (nv =? 1) && negb (S (length sp) =? xdim + 2) then sp ++ [1] else sp','if (nv =? 1) && negb (length sp =? xdim + 2) then sp ++ [1] else sp','C10 trailing axis')
m('ra2','Model_Reader1','reader1_init','(forallb isreal (hd [] (rows d0)))','(forallb isreal (concat (rows d0)))','C77 decided by the first snapshot')
m('ra3','Model_Reader1','assign_rows','Ok (firstn cum buf ++ src ++ skipn (cum + k\') buf)','Ok (firstn cum buf ++ src ++ skipn (S cum + k\') buf)','C10 concatenation')
m('ra4','Model_Reader1','get_data','| Some t => get_data_for_time r t (t + 1)','| Some t => get_data_for_time r t (t + 2)','C11 one snapshot at a time')
m('ra5','Model_Reader1','rows','window (t * rowlen a) (rowlen a) (flat a)','window (t * rowlen a) (S (rowlen a)) (flat a)','C10 rows')
m('rb1','Model_Reader2','put','firstn off l ++ msg ++ skipn (off + length msg) l','firstn off l ++ msg ++ skipn off l','C14 exchange')
m('rb2','Model_Reader2','receive_all','put data (offset m q * (n * nv)) (message q dst)','put data (offset m q * n) (message q dst)','C14 exchange')
m('rb3','Model_Reader2','use_padding','negb ((4 <=? mpi_version) ||','negb ((3 <=? mpi_version) ||','C18 padded path')
m('rb4','Model_Reader2','last_index_of','length l - 1 - index_of x (rev l)','index_of x l','C16 repeated labels')
m('rb5','Model_Reader2','read_file','(nth (a + cnt - 1) (nc_labels f) 0%Z)','(nth (a + cnt) (nc_labels f) 0%Z)','C16 rows selected')
m('rb6','Model_Reader2','file_time','(nt + steps (fs k), dict_set d k (nt, nt + steps (fs k)))','(nt + steps (fs k), dict_set d k (nt, steps (fs k)))','C14 two-stage reading')
m('rb7','Model_Reader2','read_rank','Ok (got ++ repeat (repeat zero (nxyz * nv)) ((je - js) - length got))','Ok (got ++ repeat (repeat zero (nxyz * nv)) (je - js))','C14 two-stage reading')
m('rb8','Model_Reader2','get_data_for_time2','read_rank nxyz nv fs names (ts + s) (ts + s + n)) (seq 0 size));','read_rank nxyz nv fs names s (s + n)) (seq 0 size));','C14 two-stage reading')
m('rb9','Model_Reader2','auto_nchunks','N.max 1 (N.div','N.max 0 (N.div','C17 at least one chunk')
m('rb10','Model_Reader2','last_block_row','match rev st with','match st with','C17 empty last block')
m('rb11','Model_Reader2','mat_rank','mat_loop nxyz content (sort names) js je 0 []','mat_loop nxyz content names js je 0 []','C19 sorted names')
m('rb12','Model_Reader2','chop','window (t * w) w l','window (t * m) w l','C122 rows of the chunk')
m('rb13','Model_Reader2','total_steps','fold_left (fun nt k => nt + steps (fs k)) names 0','fold_left (fun nt k => nt + steps (fs k)) (tl names) 0','C122 all files')
m('rb14','Model_Reader2','insert','if leb x y then x :: l else','if leb y x then x :: l else','C19 sorted names')
m('se1','Model_Select','argmin_from','if Qle_bool bv x then','if Qle_bool x bv then','C63 nearest frequency')
m('se2','Model_Select','find_nearest_freq','Ok (nth i freq 0%Q, i)','Ok (nth i freq 0%Q, S i)','C63 index of the nearest frequency')
m('se3','Model_Select','select_freqs','Ok (a, 0, (z, n_freq - 1))','Ok (a, 0, (z, n_freq))','C56 whole range by default')
m('se4','Model_Select','select_freqs','| None => seq il (iu + 1 - il) end','| None => seq il (iu - il) end','C56 both ends included')
m('se5','Model_Select','put','set_col (n_modes * cnt + i) a phir','set_col (n_modes * i + cnt) a phir','C55 gathering order')
m('se6','Model_Select','resolve_time','Ints [0%Z; Z.of_nat (nt mod 2); (Z.of_nat nt - 1)%Z]','Ints [0%Z; Z.of_nat (nt mod 2); Z.of_nat nt]','C57 default times are valid')
m('se7','Model_Select','norm_index','(- Z.of_nat nt <=? i)%Z','(- Z.of_nat nt <? i)%Z','C57 negative times')
m('se8','Model_Select','lower_ascii','(65 <=? n) && (n <=? 90)','(65 <=? n) && (n <=? 89)','C57 names in any case')
m('se9','Model_Select','ortho_check','clt O (c + tol_ortho, 0)%Q && clt','clt O (c + tol_ortho, 0)%Q || clt','C58 real part is checked')
m('se10','Model_Select','in_sum','(lb <=? Z.of_nat k)%Z && (Z.of_nat k <? ub)%Z','(lb <=? Z.of_nat k)%Z && (Z.of_nat k <=? ub)%Z','C54 correction')
m('se11','Model_Select','conv_file_entry','((x * nf + f) * nm + m)','((f * xs + x) * nm + m)','C53 scrambled layout')
m('se12','Model_Select','inv_period','if Qeq_bool t 0 then Err ZeroDivisionError else Ok (/ t)%Q','if Qeq_bool t 0 then Err ZeroDivisionError else Ok t','C56 periods are inverted')
m('se13','Model_Select','padded','repeat None (Z.to_nat (half_up n_dft)) ++ map Some data','repeat None n_dft ++ map Some data','C54 window at the edge')
m('ss1','Model_Session','fit_writes','(PParams d, CParams (r_nfreq r) (r_nmodes r))','(PParams d, CParams (r_nmodes r) (r_nfreq r))','C97 coefficients of the fit')
m('ss2','Model_Session','fit_writes','  mode_writes d r ++\n  [(PWeights d','  [(PWeights d','C98 modes are stored')
m('ss3','Model_Session','modes_at','| Some (CModes l) => Some l\n  | Some _ => None\n  | None => match','| Some (CModes l) => Some l\n  | _ => match','C98 torn mode file')
m('ss4','Model_Session','required','match read st (PEigs d) with\n  | Err _ => Err OSError','match read st (PParams d) with\n  | Err _ => Err OSError','C98 interrupted fit has no eigenvalues')
m('ss5','Model_Session','coeffs_writes','[(PPhir d lb ub, CModes phir); (PLtm d lb ub, CLtm (mean_of (a_data a))); (PCoeffs d lb ub, CCoeffs c);','[(PPhir d lb ub, CModes phir); (PLtm d lb lb, CLtm (mean_of (a_data a))); (PCoeffs d lb ub, CCoeffs c);','C97 reconstruction finds its mean')
m('ss6','Model_Session','step','match coeffs_writes st d (no_freq_idx a) with','match coeffs_writes st d a with','C84 arguments ignored')
m('ss7','Model_Session','step','(World st\' (set_obj (w_obj w) o (Obj (Some d) (o_coeffs (w_obj w o)))), if ok then Done else Stopped)','(World st\' (set_obj (w_obj w) o (Obj (Some d) None)), if ok then Done else Stopped)','C97 reconstruction after a new fit')
m('ss8','Model_Session','perform','((if begun then [(p, Torn)] else []) ++ rev (firstn k ws) ++ st, false)','(rev (firstn k ws) ++ st, false)','C98 torn files')
m('ss9','Model_Session','perform','| None => (rev ws ++ st, true)\n  | Some','| None => (ws ++ st, true)\n  | Some','C97 last write wins')
m('sd1','Model_Standard','block_loop','let read_here_e := min (b_e v) end_ in','let read_here_e := min (b_e v) (end_ - 1) in','C31 blocks are exact')
m('sd2','Model_Standard','drop_old','negb (b_e (snd kb) <? start)','negb (b_s (snd kb) <? start)','C31 discarded chunks')
m('sd3','Model_Standard','get_block_store','Ok (out, drop_old start st)','Ok (out, drop_old end_ st)','C31 overlap is kept')
m('sd4','Model_Standard','pass_range','min ((ipass + 1) * size) total_files in','min ((ipass + 1) * size) (total_files - 1) in','C33 all files written')
m('sd5','Model_Standard','n_passes','(total_files + size - 1) / size','total_files / size','C33 all files written')
m('sd6','Model_Standard','padded','phi r f m ++ repeat zero (phi0_max - length (phi r f m))','repeat zero (phi0_max - length (phi r f m)) ++ phi r f m','C33 correctly assembled')
m('sd7','Model_Standard','unpad_step','let start := irank * phi0_max in','let start := irank * length counts in','C33 correctly assembled')
m('sd8','Model_Standard','pass_write','Some (i / n_modes, i mod n_modes) else w','Some (i mod n_freq, i / n_freq) else w','C33 right names')
m('sd9','Model_Standard','are_blocks_present','if all_freq_exist =? n_freq then acc + 1 else acc','if 0 <? all_freq_exist then acc + 1 else acc','C40 all files must exist')
m('sd10','Model_Standard','load_blocks','| Some (Some x) => Ok x | Some None => Err ValueError','| Some (Some x) => Ok x | Some None => Err OSError','C40 torn block file')
m('sd11','Model_Standard','save_shape','if n mod others =? 0 then Ok (upd_nth ax (n / others) xshape)','if n mod others =? 0 then Ok (upd_nth ax n xshape)','C39 blocks reload')
m('sd12','Model_Standard','global_shape','upd_nth ax (sum (map (fun s => nth ax s 0) shapes)) sh','upd_nth ax (length shapes * nth ax sh 0) sh','C39 global shape')
m('sd13','Model_Standard','reload_block','do p <- distribute_dimension file ax c; Ok (flat p)','do p <- distribute_dimension file 0 c; Ok (flat p)','C39 blocks reload')
m('sd14','Model_Standard','spod_matrix_shape','let q := squeeze [xv; n_blocks] in','let q := [xv; n_blocks] in','C42 single entry')
m('sp1','Model_Spod','t_mean','| Longtime => (\\sum_(t < nt c) x t) / (nt c)%:R','| Longtime => (\\sum_(t < nt c) x t) / (n_dft c)%:R','C121 mean removed')
m('sp2','Model_Spod','block_offset','(minn (b * (n_dft c - n_overlap c) + n_dft c) (nt c) - n_dft c)%N','(minn (b * n_dft c + n_dft c) (nt c) - n_dft c)%N','C121 blocks of the record')
m('sp3','Model_Spod','block_normalized','let d := if v < eps4 c then 1 else v in','let d := v in','C112 data normalisation')
m('sp4','Model_Spod','eigs_of','`| one_sided c f * L 0 k |','`| L 0 k |','C38 one-sided spectrum')
m('sp5','Model_Spod','order','argsort L (rev_ord k)','argsort L k','C37 descending order')
m('sp6','Model_Spod','sort_V','V i (order argsort L k)','V (order argsort L k) i','C35 modes follow')
m('sp7','Model_Spod','eigs_c_l','(2 * (n_blocks c)%:R / xi2_upper c)','(2 * (n_blocks c)%:R / xi2_lower c)','C41 confidence bounds')
m('sp8','Model_Spod','gram','(nb%:R)^-1 *: (adj Q *m wmul w Q)','(nb%:R)^-1 *: (adj Q *m Q)','C83 weighted cross-spectral density')
m('sp9','Model_Spod','local_w','\\col_i w (own i) 0','\\col_i 1','C32 weights of the rank')
m('sp10','Model_Spod','block_hat','win_weight c / (n_dft c)%:R * dft','(n_dft c)%:R^-1 * dft','C135 amplitude of a tone')
m('st1','Model_Streaming','n_blocks_par','(n_dft + dn - 1) / dn','n_dft / dn','C43 schedule')
m('st2','Model_Streaming','pass','if (-1 <? t)%Z then contrib','if (0 <? t)%Z then contrib','C45 first sample of the block')
m('st3','Model_Streaming','pass','(t =? Z.of_nat n_dft - 1)%Z','(t =? Z.of_nat n_dft)%Z','C43 schedule')
m('st4','Model_Streaming','step','let b := S (block_i s) in','let b := block_i s in','C46 covariance update')
m('st5','Model_Streaming','init_slots','(- (Z.of_nat j * Z.of_nat dn), zeroA)%Z','(- (Z.of_nat j * Z.of_nat n_overlap), zeroA)%Z','C43 schedule')
m('sn1','Model_StreamNum','mean_step','(ti.+1%:R)^-1 *: (ti%:R *: m r + x r)','(ti.+1%:R)^-1 *: (ti.+1%:R *: m r + x r)','C45 running mean')
m('sn2','Model_StreamNum','u_p','x r - U r *m Ux','x r - U r *m (adj (U r) *m x r)','C48 process count')
m('sn3','Model_StreamNum','K_mx','sqrtC (b.+1%:R / (b.+2%:R ^+ 2)) *:','sqrtC (b.+2%:R / (b.+1%:R ^+ 2)) *:','C46 covariance update')
m('sn4','Model_StreamNum','stream_modes','us.1 i j / sqrt_w i','us.1 i j * sqrt_w i','C47 orthonormal modes')
m('sn5','Model_StreamNum','x_centred','(h r f - \\sum_(row < n_dft c) (window c row * dft_entry row f) *: m r)','(h r f)','C45 minus the running mean')
m('sn6','Model_StreamNum','dft_entry','(f < n_freq c - 1)%N then 2 else 1) *','(f < n_freq c)%N then 2 else 1) *','C45 doubled rows')
m('we1','Model_Weights','qdiv','if Qeq_bool b 0 then None else Some (a / b)%Q','if Qeq_bool b 0 then Some a else Some (a / b)%Q','C67 zero variance')
m('we2','Model_Weights','last_axis','nth (k * L + i) l d','nth (k + i * L) l d','C67 variable axis')
m('we3','Model_Weights','normalize_loop','if i <? L then normalize_loop','if true then normalize_loop','C81 missing axis')
m('we4','Model_Weights','store_int','if Qle_bool 0 q then Qfloor q else Qceiling q','if Qle_bool 0 q then Qceiling q else Qfloor q','C81 integer weights')
m('we5','Model_Weights','normalize_step','| ChunkStore _ => Err KeyError','| ChunkStore _ => Ok w','C82 file-based normalisation')
m('sta1','Model_Stat','local_stat','(x - m) * (x - m)','x * x','C07 variance')
m('sta2','Model_Stat','op_stat','na * nb * ((ma - mb) * (ma - mb)) / n) / n','na * nb * ((ma - mb) * (ma - mb)) / n) / (n - 1)','C07 variance')
m('pi1','Model_Pipeline','load_array','do d <- get_data cast zero rd None;','do d <- get_data cast zero rd (Some 0);','C121 whole record')
m('pi2','Model_Pipeline','blocks_of','get_block_array rows s (s + n_dft)','get_block_array rows 0 n_dft','C121 blocks')
m('pi3','Model_Pipeline','comms','map (fun r => Some (size, r)) (seq 0 size)','map (fun r => Some (size, 0)) (seq 0 size)','C123 process count')
m('ps1','Model_PodSession','fit_writes','((d, "weights.npy"%string), CArr (r_weights r))','((d, "weights.npy"%string), CArr (r_eigs r))','C117 what the fit stores')
m('ps2','Model_PodSession','coeffs_writes','let cd := results_dir ++ ["coeffs"%string] ++','let cd := results_dir ++','C119 names')
m('ps3','Model_PodSession','recon_writes','let f := match filename with Some f => f | None => "reconstructed"%string end in','let f := match filename with Some f => f | None => "coeffs"%string end in','C119 names')
m('ps4','Model_PodSession','results_folder','("modes" ++ py_str (c_nmodes (conf o)))%string','"modes"%string','C115 folder of an object')
m('ps5','Model_PodSession','step','(World st\' (set_obj (w_obj w) o (Obj (Some d) (o_coeffs (w_obj w o)))), if ok then Done else Stopped)','(World st\' (set_obj (w_obj w) o (Obj (Some d) None)), if ok then Done else Stopped)','C117 after a new fit')
m('em1','Model_Emul','abs_max','Qmax (Qabs (qmaxl x r)) (Qabs (qminl x r))','Qabs (qmaxl x r)','C71 scaled range')
m('em2','Model_Emul','ndiv','if Qeq_bool v 0 then None else','if Qeq_bool v 0 then Some x else','C71 zero rows')
m('em3','Model_Emul','n_passes','(nt - n_in + n_out - 1) / n_out','(nt - n_in) / n_out','C73 covers the record')
m('em4','Model_Emul','model_inference','predict (window (cnt * n_out) n_in data)','predict (window (cnt * n_in) n_in data)','C73 inputs of the network')
m('em5','Model_Emul','extract_sequences','Z.of_nat n_out - fh + 1)%Z in','Z.of_nat n_out - fh + 2)%Z in','C72 in range')
m('er1','Model_Errors','h_loop','(d 0 x - d0 0 x) / dt - (r 0 x - r0 0 x) / dt','(d 0 x - d0 0 x) / dt + (r 0 x - r0 0 x) / dt','C68 h1')
m('er2','Model_Errors','compute_l_errors','Ok (norm2 ef / n%:R)','Ok (norm2 ef)','C68 l2')
m('er3','Model_Errors','amax','if m < x then x else m','if x < m then x else m','C68 linf')
