M = []
def m(name, file, definition, old, new, claim, **k): M.append(dict(name=name, file=file + '.v', **{'def': definition}, old=old, new=new, claim=claim, **k))
S='Model_PipelineConv'
m('cv1',S,'vl_phi','List.nth (f * nm + m)%N (cl_phi (cl_at (tagnat.sig1 x)))','List.nth (m * nf + f)%N (cl_phi (cl_at (tagnat.sig1 x)))','C163 the modes are kept frequency by frequency')
m('cv2',S,'row_freq','(if Nat.eqb (length freqs) 1 then 0%N else i)','0%N','C163 row i is the transform at the i-th selected frequency')
m('cv3',S,'row_freq','freqs 0%N.','(List.rev freqs) 0%N.','C163 row i is the transform at the i-th selected frequency')
m('cv4',S,'vl_coeff','(fun _ => @vl_phi i)','(fun _ => @vl_phi (row_freq freqs i))','C163 rows meet the modes by position')
m('cv5',S,'vl_coeffs','Nd (cons nf (cons nt (cons nm nil)))','Nd (cons nf (cons nm (cons nt nil)))','C163 the shape of coeffs.npy')
m('cv6',S,'vl_coeffs','(List.hd nil (List.map (fun r','((fun l => List.nth 1 l nil) (List.map (fun r','C163 the first process saves coeffs.npy')
m('cv7',S,'vl_modes','(cons nf (cons nm nil))','(cons nm (cons nf nil))','C163 the shape of modes_r.npy')
m('cv8',S,'vl_modes','(fun f x m => List.nth x (List.nth (f * nm + m)%N','(fun f x m => List.nth x (List.nth m','C163 modes_r.npy holds the modes of all frequencies')
m('cv9',S,'conv_rank','do w <- distribute_dimension (rf_weights fo) ax cm;','do w <- distribute_dimension (rf_weights fo) ax None;','C163 weights are cut with the data')
m('cv10',S,'conv_rank','(rf_xdim fo + 2)%N','(rf_xdim fo + 1)%N','C163 one variable without a variable axis')
m('cv11',S,'conv_rank','Base_List.window (t * xsize)%N xsize (flat d)','Base_List.window t xsize (flat d)','C163 snapshots are consecutive')
m('cv12',S,'conv_rank','do x <- distribute_data data cm;','do x <- distribute_data data None;','C163 every process keeps its part of the data')
m('cv13',S,'conv_rank','match load_modes fo ax xsize cm f with Ok c => c | Err _ => nil end else','match load_modes fo ax xsize None f with Ok c => c | Err _ => nil end else','C163 every process keeps its part of the modes')
m('cv14',S,'conv_rank','List.existsb (Nat.eqb f) (freq_list s)','List.existsb (Nat.eqb f.+1) (freq_list s)','C163 the files of the selected frequencies are read')
m('cv15',S,'conv_rank','(flat w)\n        (List.flat_map row','(List.rev (flat w))\n        (List.flat_map row','C163 the stored weights are used')
m('cv16',S,'conv_rank','(List.flat_map row (List.seq 0 (rf_nfreq fo))), ax)','(List.flat_map row (freq_list s)), ax)','C163 rows meet the modes of the stored order')
m('cv17',S,'conv_load','do c <- load_modes fo ax xsize cm f; if Nat.ltb f (rf_nfreq fo)','do c <- load_modes fo ax xsize cm f; if Nat.ltb f.+1 (rf_nfreq fo)','C163 the call completes: the last frequency has its place')
m('cv18',S,'conv_rank','if Nat.ltb f n_dft then','if Nat.ltb f.+1 n_dft then','C163 the call completes with as many frequencies as samples')
m('cv19',S,'conv_array','do s <- select_freqs (rf_freq fo) (rf_nfreq fo) T_lb T_ub freq_idx;','do s <- select_freqs (rf_freq fo) (rf_nfreq fo) T_lb T_ub None;','C163 freq_idx selects the frequencies')
m('cv20',S,'conv_array','let par := if np is Some _ then true else false in','let par := false in','C163 the pieces of all processes are saved')
m('cv21',S,'conv_array','snd (List.hd (cl_none C, 0%N) ls) in','0%N in','C163 max_axis is the distributed axis')
m('cv22',S,'conv_array','(List.map (cl_ltm nt (ls := l))','(List.map (cl_ltm nt.+1 (ls := l))','C163 ltm.npy holds the mean')
S='Model_StoreFiles'
m('st1',S,'lt_mean_list','mean_of 0 +%R (fun v n => n%:R^-1 *: v) (to_row m) nt nblocks d','mean_of 0 +%R (fun v n => n%:R^-1 *: v) (to_row m) nblocks nt d','C165 ltm_modes.npy is the average over all snapshots')
m('st2',S,'lt_mean_list','(fun v n => n%:R^-1 *: v)','(fun v n => n.-1%:R^-1 *: v)','C165 ltm_modes.npy is the average over all snapshots')
m('st3',S,'shape_flat','Nd (cons n (cons nv nil)) v','Nd (cons nv (cons n nil)) v','C165 a netCDF fit stores a table of points and variables')
m('st4',S,'shape_array','save_shape (List.app xs (cons nv nil)) ax cm (length v)','save_shape (List.app xs (cons nv nil)) ax None (length v)','C165 the weights are stored on any number of processes')
m('st5',S,'saved','None => List.hd (Nd nil nil) ps | Some _ => concat_axis ax ps','None => List.hd (Nd nil nil) ps | Some _ => List.hd (Nd nil nil) ps','C165 the parts of all processes are stored')
m('st6',S,'saved','Some _ => concat_axis ax ps','Some _ => concat_axis 0 ps','C165 the parts are put together along the distributed axis')
m('st7',S,'store_array','(lt_mean_list (nt c) (n_blocks c) m rd_d.2)','wl','C165 ltm_modes.npy holds the mean')
m('st8',S,'store_array','rank_weights 1 user (rd_xshape rd_d.1) nv false (rd_max_axis rd_d.1) cm rd_d.2','rank_weights 1 NoWeights (rd_xshape rd_d.1) nv false (rd_max_axis rd_d.1) cm rd_d.2','C165 weights.npy holds the weights of the user')
m('st9',S,'store_array','Ok (saved np (rd_max_axis rd) (List.map fst ps), saved np (rd_max_axis rd) (List.map snd ps))','Ok (saved np (rd_max_axis rd) (List.map snd ps), saved np (rd_max_axis rd) (List.map fst ps))','C165 weights.npy holds the weights')
m('st10',S,'store_array','do w <- shape_array (rd_xshape rd_d.1) nv (rd_max_axis rd_d.1) cm wl;','do w <- shape_array (rd_xshape rd_d.1) nv 0%N cm wl;','C165 the distributed axis carries the rest')
m('st11',S,'store_files','rank_weights 1 user xs nv true 0 (Some (size, r)) (Chunks st)','rank_weights 1 user xs nv true 0 (Some (size, 0%N)) (Chunks st)','C165 every process stores its part of the weights')
m('st12',S,'store_files','let n := (blockdist (Base_List.prod xs) size r).1 in','let n := (blockdist (Base_List.prod xs) size 0).1 in','C165 parts of different sizes')
m('st13',S,'store_files','(lt_mean_list (nt c) (n_blocks c) m (Chunks st))','(lt_mean_list (length names) (n_blocks c) m (Chunks st))','C165 the mean is over all snapshots of all files')
m('st14',S,'store_files','saved (Some size) 0 (List.map snd ps))','saved (Some size) 0 (List.rev (List.map snd ps)))','C165 the parts in the order of the processes')
S='Model_PipelineFiles'
m('pf1',S,'mode_of','Nat.eqb e.1.1 f && Nat.eqb e.1.2 m','Nat.eqb e.1.1 f','C166 the file of the mode is read')
m('pf2',S,'mode_of','Nat.eqb e.1.1 f && Nat.eqb e.1.2 m','Nat.eqb e.1.2 m','C166 the files of the frequency are read')
m('pf3',S,'bound','Nat.max (S e.1.2) n','Nat.max e.1.2 n','C166 all modes are read')
m('pf4',S,'numbers','(List.seq 0%N bound)','(List.rev (List.seq 0%N bound))','C166 the modes are stacked in their order')
m('pf5',S,'stacked','Nd (List.app sh (cons (length ms) nil))','Nd (cons (length ms) sh)','C166 the modes are stacked along a new last axis')
m('pf6',S,'stacked','(List.flat_map (fun i => List.map (fun m => List.nth i (if mode_of f m is Some x then x else nil) zero) ms) (List.seq 0%N (Base_List.prod sh)))','(List.flat_map (fun m => List.map (fun i => List.nth i (if mode_of f m is Some x then x else nil) zero) (List.seq 0%N (Base_List.prod sh))) ms)','C166 the modes are stacked along a new last axis')
m('pf7',S,'stacked','(List.seq 0%N (Base_List.prod sh))','(List.seq 0%N (List.hd 0%N sh))','C166 all entries of the modes are read')
m('pf8',S,'folder_of_files','(n_modes_save c) w (stacked','(n_blocks c) w (stacked','C166 the number of saved modes')
m('pf9',S,'folder_of_files','(stacked 0%R files (List.app xs (cons nv nil)))','(stacked 0%R files xs)','C166 the shape of the modes')
m('pf10',S,'folder_of_files','(s_ndft s) (s_dt s)) (n_freq c)','(s_ndft s) 1%Q) (n_freq c)','C166 the frequency axis of the folder')
