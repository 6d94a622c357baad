M=[]
def m(name,file,df,old,new,claim,multi=False):
    M.append(dict(name=name,file=file+'.v',**{'def':df},old=old,new=new,claim=claim,multi=multi))
# --- mode files
m('mf1','Model_ModeFiles','get_all_modes','let flist := sort str_leb (filter','let flist := (filter','C65 modes come in order of frequency')
m('mf2','Model_ModeFiles','mode_prefix','append "freq_idx_f" (append (pad8 f) "_m")','append "freq_idx_f" (pad8 f)','C65 modes of one frequency only',True)
m('mf3','Model_ModeFiles','get_modes_at_freq','let modes := sort str_leb (filter (glob','let modes := (filter (glob','C65 modes of a frequency in order')
m('mf4','Model_ModeFiles','resolve','else cwd ++ parts p','else parts p','C94 a relative path is taken from the current directory')
m('mf5','Model_ModeFiles','get_all_modes_at','(get_all_modes (listing cwd\'), cwd\')','(get_all_modes (listing cwd\'), cwd)','C94 the second call fails')
# --- coords
m('co1','Model_Coords','nearest_coord','let cnt := length dims - i - 1 in','let cnt := i in','C64 indices reported in reverse order')
m('co2','Model_Coords','nearest_coord','(g - coord)','(g + coord)','C64 nearest value')
m('co3','Model_Coords','find_nearest_coords','if list_eqb (map (@length Q) x) data_space_dim then','if true then','C64 grid of another shape is rejected')
# --- emulation
m('em1','Model_Emul','abs_max','Qmax (Qabs (qmaxl x r)) (Qabs (qminl x r))','Qabs (qmaxl x r)','C71 scaled values lie in range')
m('em2','Model_Emul','nmul','Some (a * v)%Q','Some (a / v)%Q','C71 descaling inverts scaling')
m('em3','Model_Emul','trunc','if Qle_bool 0 q then Qfloor q else Qceiling q','Qceiling q','C95 integer data are truncated')
m('em4','Model_Emul','extract_sequences','let iy := seq (t + n_in + f - 1) n_out in','let iy := seq (t + n_in + f) n_out in','C72 sequences are in range')
m('em5','Model_Emul','extract_sequences','window (t + n_in + f - 1) n_out data','window (t + n_in - 1) n_out data','C72 the target does not leak from the input')
m('em6','Model_Emul','extract_sequences','- fh + 1)%Z','- fh + 2)%Z','C72 number of sequences')
m('em7','Model_Emul','fill','(n_out * i + n_in) (n_in + n_out * (i + 1))','(n_out * i) (n_out * (i + 1))','C73 where the predictions go')
m('em8','Model_Emul','model_inference','predict (window (cnt * n_out) n_in data)','predict (window cnt n_in data)','C73 what the network is given')
m('em9','Model_Emul','model_inference','if nt <? n_in then','if nt <=? n_in then','C73 record no longer than the input')
# --- IO
m('io1','Model_IO','set_key','then (k, v) :: d\'','then (k\', v\') :: d\'','C69 a later value replaces an earlier one')
m('io2','Model_IO','read_config','params_opt params_req)','params_req params_opt)','C69 the optional section wins')
m('io3','Model_IO','read_data','let f := lower f in','','C70 case of the extension')
m('io4','Model_IO','splitext','(start <=? dot) && existsb','existsb','C70 a dot in a folder name is not an extension')
m('io5','Model_IO','splitext','&& existsb (fun c => negb (Ascii.eqb c ".")) (window start (dot - start) l)','','C70 hidden files have no extension')
m('io6','Model_IO','read_data','| _ => splitext data_file end','| Some EmptyString => EmptyString | None => splitext data_file end','C70 an empty format is taken from the name')
# --- Hamming
m('ha1','Model_Hamming','hamming_window','(INR N - 1)','INR N','C74 symmetric window')
m('ha2','Model_Hamming','win_weight','1 / mean window','1 / rsum window','C74 the gain of the window is compensated')
m('ha3','Model_Hamming','block_coeff','(win_weight w / INR n * fst f','(win_weight w * fst f','C74 amplitude of a steady signal')
# --- Geo
m('ge1','Model_Geo','d_lon','first / 2 :: diff (lon_rad x2)','2 * PI / INR x2 :: diff (lon_rad x2)','C66 weights vanish at the first longitude')
m('ge2','Model_Geo','geo_trapz_3D','concat (repeat dA3 nv)','map (map (fun r => concat (repeat r nv))) dA3','C66 layout of several variables')
m('ge3','Model_Geo','area','(nth i (lat_rad x1) 0)','(nth i (lat_rad x1) 0 / 2)','C66 weights vanish at the poles')
# --- errors
m('er1','Model_Errors','compute_l_errors','Ok (norm1 ef / n%:R)','Ok (norm1 ef)','C68 the l1 error is the mean')
m('er2','Model_Errors','compute_l_errors','`|data 0 i - data_ref 0 i|','(data 0 i - data_ref 0 i)','C68 errors are non-negative')
m('er3','Model_Errors','amax','if m < x then x else m','if m < x then m else x','C68 linf is the largest difference')
m('er4','Model_Errors','compute_l_errors','(ef 0 i / data_ref 0 i)','(ef 0 i / `|data_ref 0 i|)','C68 relative errors of negative references')
m('er5','Model_Errors','h_loop','err + dt * s ^+ 2','err + s ^+ 2','C68 h1 error')
# --- plots
m('pl1','Model_Plot','swap_halves','skipn (length r / 2) r ++ firstn (length r / 2) r','r','C75 halves are swapped')
m('pl2','Model_Plot','plot_2d_modes','if shift180 then shift_cut lim1 180 x1a else x1a','x1a','C75 coordinates are restored')
m('pl3','Model_Plot','plot_2d_modes','| Err e => (Err e, x1a)','| Err e => (Err e, x1)','C75 an exception leaves them shifted')
m('pl4','Model_Plot','draw_one','|| negb (len2 =? length m) then transpose m else m','|| negb (len2 =? length m) then m else transpose m','C75 orientation')
m('pl5','Model_Plot2','draw_data','|| negb (length x2 =? d_n1 X) then transpose a0 m else m','|| negb (length x2 =? d_n1 X) then m else m','C100 orientation of data plots')
m('pl6','Model_Plot2','method_plot_2d_data','(cut_time X 0 (m + 1))','(cut_time X 0 m)','C101 the largest index is included')
m('pl7','Model_Plot2','stop_of','if (b <? 0)%Z then Z.of_nat nt + b else b','b','C101 negative indices')
m('pl8','Model_Plot2','method_plot_data_tracers','(cut_time X t0 (Z.of_nat t1)) coords x t0 t1','(cut_time X t0 (Z.of_nat t1)) coords x 0 (t1 - t0)','C102 time window')
m('pl9','Model_Plot2','method_frames','0 t1 sampling v.','0 (t1 - t0) sampling v.','C102 video window')
m('pl10','Model_Plot2','tracer_turns','linspace 5 n_points k','linspace 1 n_points k','C103 periods shown')
m('pl11','Model_Plot2','mode_tracer_rows','subplot_rows (length modes) 0','subplot_rows (length modes * length vars) 0','C103 several variables')
m('pl12','Model_Plot2','is_peak','Qlt_b ((3 # 2) * nbr_mean) val && up && down','Qlt_b nbr_mean val && up && down','C104 what is reported')
m('pl13','Model_Plot2','is_peak','let up := if 0 <? i then Qlt_b (nth (i - 1) vals 0%Q) val else true in','let up := true in','C104 a peak is larger than its neighbours')
m('pl14','Model_Plot2','slice_axes','| 1 => Ok (n1, n3)','| 1 => Ok (n2, n3)','C105 axes of the slice')
m('pl15','Model_Plot2','pick','(len =? n2) && free X2','(len =? n2)','C105 one coordinate per axis')
m('pl16','Model_Plot2','max_lines','Some v, Some h => Ok (v, h)','Some v, Some h => Ok (h, v)','C106 which line is where')
m('pl17','Model_Plot2','max_lines','nth_error x2 row, nth_error x1 col','nth_error x1 row, nth_error x2 col','C106 which line is where')
m('pl18','Model_Plot2','show_period','Qle_bool 24 p && Qlt_b p (24 * (30437 # 1000)) then ((p / 24)%Q, Days)','Qle_bool 24 p && Qlt_b p (24 * (30437 # 1000)) then (p, Days)','C104 period shown')
m('pl19','Model_Plot2','search_left','(fun x => Qlt_b x v)','(fun x => Qle_bool x v)','C104 neighbourhood of a peak')
m('pl20','Model_Plot2','report_one','(nth p (tl freq) 0%Q) freq','(nth p freq 0%Q) freq','C104 frequency of the mode drawn')
# --- spectrum
m('sp1','Model_Spectrum','array_hat',"'Re (dft w n u f)",'dft w n u f','C76 the sine part is dropped')
m('sp2','Model_Spectrum','compute_energy_spectrum','if i == 0%N then 0 else','if i == n.+1 then 0 else','C76 the mean is left out')
# --- sessions
m('se1','Model_Session','perform','rev (firstn k ws) ++ st, false)','rev (firstn (S k) ws) ++ st, false)','C98 interrupted writes')
m('se2','Model_Session','mode_writes','seq 0 (r_nmodes r))) (seq 0 (r_nfreq r))','seq 0 (r_nmodes r - 1))) (seq 0 (r_nfreq r))','C99 mode files of an earlier fit')
m('se3','Model_Session','step','match coeffs_writes st d (no_freq_idx a) with','match coeffs_writes st d a with','C84 freq_idx is not passed on')
m('se4','Model_Session','coeffs_writes','(PCoeffs d lb ub, CCoeffs c)','(PCoeffs d 0 0, CCoeffs c)','C97 separate folders for separate ranges')
m('se5','Model_Session','fit_writes','(PParams d, CParams (r_nfreq r) (r_nmodes r)); (PEigs d, CEigs (r_freq r))','(PEigs d, CEigs (r_freq r)); (PParams d, CParams (r_nfreq r) (r_nmodes r))','C98 eigenvalues are written last')
m('se6','Model_Session','modes_at','match lookup (PFreq d f) st with\n  | Some (CModes l) => Some l\n  | Some _ => None\n  | None => match mode_numbers','match None with\n  | Some (CModes l) => Some l\n  | Some _ => None\n  | None => match mode_numbers','C99 the frequency file wins')
m('se7','Model_Session','sim_folder','(Z.of_nat (r_blocks r))','0%Z','C29 separate folders')
m('se8','Model_Session','step','(Obj (Some d) (o_coeffs (w_obj w o)))','(Obj (Some d) None)','C97 an old coefficient folder stays attached')
m('se9','Model_Session','recon_writes','do c <- match read st (PCoeffs d lb ub) with Err _ => Err OSError | Ok c => Ok c end;','do c <- read st (PCoeffs d 0 0);','C97 the coefficients of the folder')
m('ps1','Model_PodSession','results_folder','("modes" ++ py_str (c_nmodes (conf o)))%string','"modes"%string','C115 the folder carries the number of modes')
m('ps2','Model_PodSession','fit_writes','((d, "params_modes.yaml"%string), CYaml (r_params r)); ((d, "eigs.npz"%string), CNpz (r_eigs r))','((d, "eigs.npz"%string), CNpz (r_eigs r)); ((d, "params_modes.yaml"%string), CYaml (r_params r))','C118 interrupted runs')
m('ps3','Model_PodSession','coeffs_writes','CArr phir); ((cd, "ltm.npy"','CArr c); ((cd, "ltm.npy"','C117 reconstruction uses the modes of the coefficients')
m('ps4','Model_PodSession','recon_writes','(coeffs_dir, "coeffs.npy"%string)','(coeffs_dir, "modes_r.npy"%string)','C117 reconstruction uses the saved coefficients')
m('ps5','Model_PodSession','recon_writes','None => "reconstructed"%string','None => "coeffs"%string','C119 default name of a reconstruction')
m('ps6','Model_PodSession','step','(Obj (Some d) (o_coeffs (w_obj w o)))','(Obj (Some d) None)','C117 reconstruction after a new fit')
m('ps7','Model_PodSession','step','match coeffs_writes st d None a with','match coeffs_writes st d None (CoeffsArgs (a_data a) None) with','C116 arguments without influence')
m('pa1','Model_Params','construct','put "savedir" (VStr sd) d)','d)','C120 the folder is made absolute')
m('pa2','Model_Params','store_params','(put "n_dft" (VInt (o_ndft o))','(put "n_dft" (VInt nb)','C120 the file records the transform length')
m('pa3','Model_Params','step','Ok f => (set_obj (set_dict w d f) d i (Some o\'), Saved f)','Ok f => (set_obj w d i (Some o\'), Saved f)','C120 what later fits of the dictionary see')
m('pa4','Model_Params','step','(fun j => if Nat.eqb j d then x else dicts w j)','(fun j => x)','C120 objects do not influence each other')
m('pa5','Model_Params','clip','then o_nmodes o else inject_Z nb','then inject_Z nb else o_nmodes o','C120 number of modes in the file')
m('pa6','Model_Params','n_freq_of','(o_ndft o / 2 + 1)%Z','(o_ndft o / 2)%Z','C120 number of frequencies in the file')
# --- whole fits
m('wf1','Model_Pipeline','starts','(Z.of_nat n_overlap) (Z.of_nat i)','(Z.of_nat n_overlap) (Z.of_nat (S i))','C121 blocks')
m('wf2','Model_Pipeline','comms','map (fun r => Some (size, r)) (seq 0 size)','map (fun r => Some (size, 0)) (seq 0 size)','C121 each process its own share')
m('wf3','Model_Pipeline','mean_of','long_t_mean_dict vzero add divn nt (map_store g st)','long_t_mean_dict vzero add divn (S nt) (map_store g st)','C122 mean of chunked data')
m('wf4','Model_PipelineNum','block_fft','List.map (fun row => row - mu) blk in','List.map (fun row => row + mu) blk in','C121 the mean is removed')
m('wf5','Model_PipelineNum','fit_M','\\sum_(l <- ls) gram','\\sum_(l <- take 1 ls) gram','C121 sum over the processes')
m('wf6','Model_PipelineNum','freq_file_of','concat_axis ax (List.map','concat_axis 0 (List.map','C121 files are assembled along the distributed axis')
m('wf7','Model_PipelineNum','fit_array','rank_weights 1 user (rd_xshape rd_d.1) nv false','rank_weights 1 user (rd_xshape rd_d.1) nv true','C121 weights follow the data')
m('wf8','Model_PipelineNum','fit_files','rank_weights 1 user xs nv true 0','rank_weights 1 user xs nv false 0','C122 weights follow the data')
m('wf9','Model_PipelineNum','mode_column','List.nth m row 0) (kept f l)','List.nth m row 0) (kept 0 l)','C122 files hold their frequency')
m('wf10','Model_PipelineNum','configure','(if (nb < s_modes s)%N then nb else s_modes s)','(s_modes s)','C121 kept modes')
m('wf11','Model_PipelineNum','kept','List.firstn (n_modes_save c)','List.skipn (n_blocks c - n_modes_save c)','C124 leading modes are kept')
m('wf12','Model_PipelineNum','block_fft','(win_weight c / (n_dft c)%:R) *:','(win_weight c) *:','C121 scaling')
m('wf13','Model_PipelineNum','fit_eigs','eigs_of c f (fit_L f)','eigs_of c 0 (fit_L f)','C121 one-sided factor')
# --- SPOD, later claims
m('nb1','Model_Spod','block_windowed','k * window c k','k','C114 mirrored frequencies')
m('nb2','Model_Spod','all_modes','(sqrtC nb%:R * sqrtC (L 0 k))^-1','(sqrtC (L 0 k))^-1','C110 eigenvalues and modes reproduce the cross-spectral density')
m('nb3','Model_Spod','gram','(nb%:R)^-1 *:','','C110 scaling of the matrix')
m('nb4','Model_Spod','wmul','A i j * w i 0','A i j * (w i 0) ^+ 2','C83 weighted eigenproblem')
m('nb5','Model_Spod','block_var','(q j - mu) ^+ 2','(q j) ^+ 2','C113 a steady field is irrelevant')
m('nb6','Model_Spod','dft','w ^+ (f * k)','w ^+ (f + k)','C38 energy')
m('nb7','Model_Spod','eigs_c_u','xi2_lower c)','xi2_upper c)','C41 confidence bounds')
