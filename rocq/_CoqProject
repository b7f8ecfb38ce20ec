-Q theories Verif
theories/Exec.v
theories/Num.v
theories/M_fft_kernels.v
theories/M_fft.v
theories/RC.v
theories/L_stk.v
theories/L_fft.v
theories/L_fftR.v
theories/L_obj.v
theories/L_dft.v
theories/L_fact.v
theories/L_stack.v
theories/L_obj2.v
theories/L_plan.v
theories/L_rad4.v
theories/P_fft.v
theories/P_entry.v
theories/P_layout.v
theories/P_plan.v
theories/M_rfft.v
theories/L_rfft.v
theories/P_rfft.v
theories/RX.v
theories/M_stft.v
theories/L_prov.v
theories/L_stft.v
theories/P_stft.v
theories/M_wave.v
theories/L_wave.v
theories/P_wave.v
theories/M_nd.v
theories/M_word.v
theories/L_nd.v
theories/P_nd.v
theories/M_trig.v
theories/L_trig.v
theories/P_trig.v
theories/P_dctp.v
theories/P_det.v
theories/M_cep.v
theories/P_cep.v
theories/M_win.v
theories/P_win.v
theories/M_spec.v
theories/P_spec.v
theories/M_index.v
theories/P_index.v
theories/M_web.v
theories/P_web.v
theories/M_util.v
theories/P_util.v
theories/M_sanity.v
theories/P_sanity.v
theories/M_xtask.v
theories/P_xtask.v
theories/M_bench.v
theories/P_bench.v
theories/M_page.v
theories/P_page.v
theories/L_err.v
theories/L_flx.v
theories/P_err.v
theories/P_word.v
theories/L_rerr.v
theories/P_rerr.v
theories/P_serr.v
theories/P_nderr.v
theories/P_terr.v
theories/L_ierr.v
theories/L_pi.v
theories/L_ieee.v
theories/P_ierr.v
theories/L_ieeex.v
theories/L_iwin.v
theories/P_iwin.v
theories/P_ieq.v
theories/M_sw.v
theories/P_sw.v
theories/P_ispec.v
theories/M_tune.v
theories/P_tune.v
theories/L_irerr.v
theories/P_irerr.v
theories/M_conc.v
theories/P_conc.v
theories/P_haar.v
theories/L_bad.v
theories/P_bad.v
theories/M_par.v
theories/P_par.v
theories/P_istft.v
theories/P_bad2.v
theories/P_ind.v
theories/L_l2.v
theories/P_l2.v
theories/P_goer.v
theories/P_derr.v
theories/L_case.v
theories/P_iistft.v
theories/P_iterr.v
theories/P_icep.v
theories/P_imel.v
